(** Weak convergence of simulated Heston processes (full_heston_process and heston_process): the mean of the price is exact with
    any steps; the moments and the characteristic function of its logarithm, and the moments of the variance, computed with
    steps of length h, differ from those of the process by no more than a constant times h. *)
From Coq Require Import String List Arith Bool ZArith Reals Lra Lia Sorted Permutation.
From Coquelicot Require Import Coquelicot.
From Verif Require Import Base BaseOrd BaseNum BaseArr M_paths S_paths S_run L_ord L_paths8
  M_process M_source S_source M_sde S_sde S_sdes L_sde L_sde2 L_sde3 L_sdes2 M_presets S_presets L_presets L_presets2 L_presets3 P_presets M_integrate S_integrate P_source P_source2 P_source4 S_true2 S_euler L_euler L_euler2
  BaseNd BaseIdx S_process L_nd L_pack L_process P_source3 M_rv S_rv M_analytical S_analytical M_anti S_dist S_law P_chf L_line L_complex L_law L_law2 L_law4 L_law5 S_gval L_gval L_gval2 L_gval3 L_gval4 S_tval L_tval L_tval2 L_tval3 L_tval4 L_tval6
  S_info L_info L_info2 L_gop L_cirop L_cirop2 L_cirop3 L_hesop L_hesop2 L_hesop3 L_hesop4 L_nrun L_cirrun S_heslaw L_hesrun L_law8 L_gval6 P_gval P_tval P_cirlaw L_hesgen.
Import ListNotations.
Local Open Scope R_scope.
Notation len := List.length.

Lemma Forall2_at {A B} (P : A -> B -> Prop) l m : Forall2 P l m -> forall i, (forall a, nth_error l i = Some a -> exists b, nth_error m i = Some b /\ P a b) /\ (forall b, nth_error m i = Some b -> exists a, nth_error l i = Some a /\ P a b).
Proof. induction 1 as [|a b l m H _ IH]; intros [|i]; cbn; split; try discriminate; try (intros ? [= <-]; eauto); apply IH. Qed.
(** both processes run together, with the same prices *)
Lemma both_run {G : Type} (full : bool) (dw : G -> R -> R -> res (G * arr R)) (set_order : list string -> list string) (gi : bool) vshape paths (x0 y0 : arr R) (args : dict (M_sde.param R R)) (pace_fn : list R -> list R) (fuel : nat) (g : G) (inf : arr nat) (timeline : list R) s' xx (X Y : nat -> list nat -> R) :
  valid_timeline timeline -> (len timeline + len (pace_fn timeline) <= fuel)%nat ->
  sde_call Rminus ((if full then full_heston_process else heston_process) dw set_order gi vshape paths x0 y0 args) 0 pace_fn fuel (g, inf) [len timeline] timeline = Ok (s', xx) ->
  len xx = len timeline -> heston_values full vshape paths xx X Y ->
  let run := sde_call Rminus (full_heston_process dw set_order gi vshape paths x0 y0 args) 0 pace_fn fuel (g, inf) [len timeline] timeline in
  let a := force_addaxis false vshape in
  forall i ix, (i < len timeline)%nat -> inb (vshape ++ [paths])%list ix ->
    X i ix = exp (value_at run i (S_sdes.comp a vshape 0 ix)) /\ (full = true -> Y i ix = value_at run i (S_sdes.comp a vshape 1 ix)).
Proof.
  intros V0 HF E LX HV run a i ix Hi HI.
  assert (SI : start_index (len timeline) 0 0) by (unfold start_index; destruct timeline; [cbn in Hi; lia|cbn; lia]).
  destruct full.
  - destruct (C15_heston_from_full Rminus dw set_order gi vshape paths x0 y0 args 0 pace_fn fuel g inf timeline 0 s' xx V0 SI HF E) as (xx2 & _ & SP).
    destruct (nth_error xx i) as [b|] eqn:EN; [|apply nth_error_None in EN; lia].
    destruct (proj1 (Forall2_at _ _ _ SP i) _ EN) as (b2 & _ & Y0 & y & A & B & -> & _ & ER & _).
    unfold run. rewrite E. cbn [value_at]. rewrite EN. destruct (HV i Y0 EN) as (a1 & b1 & E1 & H1). destruct (H1 ix) as [-> ->].
    destruct (full_result vshape paths Y0) as (a2 & b3 & E2 & _ & _ & H2). rewrite E1 in E2. injection E2 as <- <-. destruct (H2 ix HI) as [-> ->]. auto.
  - destruct (C15_full_from_heston Rminus dw set_order gi vshape paths x0 y0 args 0 pace_fn fuel g inf timeline 0 s' xx V0 SI HF E) as (xx2 & E2 & SP).
    destruct (nth_error xx i) as [b|] eqn:EN; [|apply nth_error_None in EN; lia].
    destruct (proj2 (Forall2_at _ _ _ SP i) _ EN) as (b2 & EN2 & Y0 & y & A & B & -> & -> & ER & [AS AE]).
    unfold run. rewrite E2. cbn [value_at]. rewrite EN2. rewrite (HV i y EN ix).
    destruct (full_result vshape paths Y0) as (a2 & b3 & E3 & SA & _ & H2). rewrite ER in E3. injection E3 as <- <-. destruct (H2 ix HI) as [HX _].
    rewrite <- AE by (rewrite SA; exact HI). split; [exact HX|discriminate].
Qed.

(** means of functions of the logarithm of the price and of the variance are those of iterated steps *)
Lemma heston_steps {G : Type} (full : bool) (L : nat -> (G -> R) -> R) X Y w (x0 y0 mu sigma theta k xi : arr R) r timeline t0 T h d : heston_simulation full L X Y w x0 y0 mu sigma theta k xi r timeline t0 T h d ->
  forall i ix, (i < len timeline)%nat -> inb w ix -> 0 < bget k ix -> 0 < bget theta ix ->
  (forall g, 0 < X g i ix) /\
  exists hs N, (forall n, (n < N)%nat -> 0 <= hs n <= h) /\ span hs N 0 = nth i timeline 0 - t0 /\ nth i timeline 0 - t0 <= T /\
    forall F, tame2 F -> (full = true \/ forall x y y', F x y = F x y') ->
      L d (fun g => F (ln (X g i ix)) (Y g i ix)) = itr2 (bget mu ix) (bget sigma ix) (r ix) (bget theta ix) (bget k ix) (bget xi ix) hs N 0 F (ln (bget x0 ix)) (bget y0 ix).
Proof.
  intros (normal & mvnormal & anti & corr & rho & c & n & paths & vshape & s & set_order & gi & args & pace_fn & fuel & inf & -> & HS & PERM & HR & (AM & AS & AT & AK & AX) & (BX0 & BY0 & BM & BS & BT & BK & BX) & (V0 & N0 & HT & HD & Hh & HFI) & HF & HX) i ix Hi HI K0 T0.
  destruct (heston_source L normal mvnormal anti corr rho c n paths vshape s HS) as [HW HP].
  destruct (heston_run_values L (proj1 HS) vshape paths (at_step s) HW set_order PERM gi x0 y0 mu sigma theta k xi args AM AS AT AK AX BX0 BY0 BM BS BT BK BX pace_fn fuel inf timeline t0 V0 N0 HF)
    as (_ & gr & kk & OT & LG & H).
  assert (VV : forall g, let run := sde_call Rminus (full_heston_process (at_step s) set_order gi vshape paths x0 y0 args) 0 pace_fn fuel (g, inf) [len timeline] timeline in
    X g i ix = exp (value_at run i (S_sdes.comp (force_addaxis false vshape) vshape 0 ix)) /\ (full = true -> Y g i ix = value_at run i (S_sdes.comp (force_addaxis false vshape) vshape 1 ix))).
  { intro g. destruct (HX g) as (s' & xx & E & LX & HV). exact (both_run full (at_step s) set_order gi vshape paths x0 y0 args pace_fn fuel g inf timeline s' xx (X g) (Y g) V0 HF E LX HV i ix Hi HI). }
  split; [intro g; rewrite (proj1 (VV g)); apply exp_pos|].
  destruct OT as [(GP & GF & E0 & GK) _]. destruct (GK i Hi) as [K1 K2].
  exists (gap gr), (kk i). split; [|split; [|split]].
  - intros m Hm. split; [left; apply GP; lia|apply GF; auto; lia].
  - rewrite span_gap. cbn [Nat.add]. rewrite K2, E0. reflexivity.
  - assert (X1 := HT (nth i timeline 0) (nth_In _ _ Hi)). lra.
  - intros F TF HFu. rewrite <- (H i ix d F (r ix) Hi HI K0 T0 TF (HP ix (r ix) HI (fun t => HR t ix HI)) HD). apply (proj1 (proj1 HS)). intro g. destruct (VV g) as [E1 E2]. rewrite E1, ln_exp.
    destruct HFu as [->|HFu]; [rewrite (E2 eq_refl); reflexivity|apply HFu].
Qed.

(** runs succeed: the simulation exists, for all states of the generator *)
Theorem C76_runs (full : bool) (G : Type) (L : nat -> (G -> R) -> R) normal mvnormal anti corr rho c n paths vshape s (set_order : list string -> list string) (gi : bool) (x0 y0 mu sigma theta k xi : arr R) (r : list nat -> R) args pace_fn fuel (inf : arr nat) (timeline : list R) t0 T h d :
  let w := (vshape ++ [paths])%list in
  pair_source L normal mvnormal anti corr rho c n paths (heston_vshape vshape) s -> (forall l, Permutation (set_order l) l) -> (forall t ix, inb w ix -> r ix = heston_corr vshape (c t) ix) ->
  const_arg args "mu" mu -> const_arg args "sigma" sigma -> const_arg args "theta" theta -> const_arg args "k" k -> const_arg args "xi" xi ->
  broadcasts (shp x0) w -> broadcasts (shp y0) w -> broadcasts (shp mu) w -> broadcasts (shp sigma) w -> broadcasts (shp theta) w -> broadcasts (shp k) w -> broadcasts (shp xi) w ->
  stepped timeline (pace_fn timeline) t0 T h d -> (len timeline + len (pace_fn timeline) <= fuel)%nat ->
  exists X Y, heston_simulation full L X Y w x0 y0 mu sigma theta k xi r timeline t0 T h d /\
    forall g, exists s' xx, sde_call Rminus ((if full then full_heston_process else heston_process) (at_step s) set_order gi vshape paths x0 y0 args) 0 pace_fn fuel (g, inf) [len timeline] timeline = Ok (s', xx) /\
      len xx = len timeline /\ heston_values full vshape paths xx (X g) (Y g).
Proof.
  intros w HS PERM HR AM AS AT AK AX BX0 BY0 BM BS BT BK BX ST HF. assert (ST' := ST). destruct ST' as (V0 & N0 & _).
  destruct (heston_source L normal mvnormal anti corr rho c n paths vshape s HS) as [HW HP].
  destruct (heston_run_values L (proj1 HS) vshape paths (at_step s) HW set_order PERM gi x0 y0 mu sigma theta k xi args AM AS AT AK AX BX0 BY0 BM BS BT BK BX pace_fn fuel inf timeline t0 V0 N0 HF) as (R1 & _).
  set (runf := fun g => sde_call Rminus (full_heston_process (at_step s) set_order gi vshape paths x0 y0 args) 0 pace_fn fuel (g, inf) [len timeline] timeline) in *.
  set (a := force_addaxis false vshape).
  set (X := fun g i (ix : list nat) => if full then match runf g with Ok (_, xx) => match nth_error xx i with Some (Some Y0) => match full_heston_result vshape paths Y0 with Ok (A, _) => dat A ix | Err _ => 0 end | _ => 0 end | Err _ => 0 end
    else match sde_call Rminus (heston_process (at_step s) set_order gi vshape paths x0 y0 args) 0 pace_fn fuel (g, inf) [len timeline] timeline with Ok (_, xx) => match nth_error xx i with Some (Some y) => dat (heston_result vshape paths y) ix | _ => 0 end | Err _ => 0 end).
  set (Y := fun g i (ix : list nat) => match runf g with Ok (_, xx) => match nth_error xx i with Some (Some Y0) => match full_heston_result vshape paths Y0 with Ok (_, B) => dat B ix | Err _ => 0 end | _ => 0 end | Err _ => 0 end).
  assert (K : forall g, exists s' xx, sde_call Rminus ((if full then full_heston_process else heston_process) (at_step s) set_order gi vshape paths x0 y0 args) 0 pace_fn fuel (g, inf) [len timeline] timeline = Ok (s', xx) /\
      len xx = len timeline /\ heston_values full vshape paths xx (X g) (Y g)).
  { intro g. destruct (R1 g) as ([u' i'] & xx & E). set (s' := (u', i')) in *.
    assert (SI : start_index (len timeline) 0 0) by (unfold start_index; destruct timeline; [discriminate|cbn; lia]).
    assert (LX : len xx = len timeline).
    { destruct (sde_call_run Rminus _ 0 pace_fn fuel g inf timeline 0%nat t0 u' i' xx V0 SI N0 HF E) as (? & ? & ? & ? & ? & _ & _ & _ & _ & _ & _ & LX & _). exact LX. }
    destruct full.
    - exists s', xx. split; [exact E|]. split; [exact LX|]. intros i y EN. destruct (full_result vshape paths y) as (A & B & EA & _). exists A, B. split; [exact EA|]. intro ix.
      unfold X, Y, runf. rewrite E, EN, EA. auto.
    - destruct (C15_heston_from_full Rminus (at_step s) set_order gi vshape paths x0 y0 args 0 pace_fn fuel g inf timeline 0 s' xx V0 SI HF E) as (xx2 & E2 & SP).
      exists s', xx2. split; [exact E2|]. split; [rewrite <- LX; symmetry; exact (Forall2_len _ _ _ SP)|]. intros i y EN ix. unfold X. rewrite E2, EN. reflexivity. }
  exists X, Y. split; [|exact K]. exists normal, mvnormal, anti, corr, rho, c, n, paths, vshape, s, set_order, gi, args, pace_fn, fuel, inf.
  split; [reflexivity|]. split; [exact HS|]. split; [exact PERM|]. split; [exact HR|]. repeat (split; [solve [auto 12]|]). exact K.
Qed.
Print Assumptions C76_runs.

(** *** the mean of the price is that of the process, with any steps *)
Theorem C76_price (full : bool) (G : Type) (L : nat -> (G -> R) -> R) X Y w (x0 y0 mu sigma theta k xi : arr R) r timeline t0 T h d i ix :
  heston_simulation full L X Y w x0 y0 mu sigma theta k xi r timeline t0 T h d -> (i < len timeline)%nat -> inb w ix ->
  0 < bget x0 ix -> 0 < bget theta ix -> 0 < bget k ix -> -1 <= r ix <= 1 ->
  L d (fun g => X g i ix) = bget x0 ix * exp (bget mu ix * (nth i timeline 0 - t0)).
Proof.
  intros HS Hi HI X0 T0 K0 RH. assert (R1 : r ix*r ix <= 1) by nra.
  destruct (heston_steps full L X Y w x0 y0 mu sigma theta k xi r timeline t0 T h d HS i ix Hi HI K0 T0) as (XP & hs & N & HH & SP & _ & HL).
  assert (TE : tame2 (fun x _ : R => exp x)) by (apply (tame2_x exp); apply (tame_ext (fun z => exp (0 + 1*z))); [intro; f_equal; ring|apply tame_exp]).
  assert (E := HL (fun x _ => exp x) TE (or_intror (fun _ _ _ => eq_refl))).
  rewrite (itr2_exp (bget mu ix) (bget sigma ix) (r ix) (bget theta ix) (bget k ix) (bget xi ix) K0 T0 R1 hs N (fun n Hn => proj1 (HH n Hn))) in E by lia.
  rewrite SP, exp_plus, exp_ln in E by auto. rewrite Rmult_comm, <- E.
  assert (LE : is_law L) by (destruct HS as (? & ? & ? & ? & ? & ? & ? & ? & ? & ? & ? & ? & ? & ? & ? & ? & _ & HS & _); exact (proj1 HS)).
  apply (proj1 LE). intro g. symmetry. apply exp_ln, XP.
Qed.
Print Assumptions C76_price.

(** *** the logarithm of the price *)
Lemma var_close q m mu v C1 C2 h M B : 0 <= C1 -> 0 <= h <= B -> Rabs mu <= M -> Rabs (m - mu) <= C1*h -> Rabs (q - (v + mu*mu)) <= C2*h ->
  Rabs (q - m*m - v) <= (C2 + C1*(2*M + C1*B))*h.
Proof.
  intros P1 HB MU A1 A2. replace (q - m*m - v) with (q - (v + mu*mu) - (m - mu)*(m - mu + 2*mu)) by ring.
  assert (D : Rabs ((m - mu)*(m - mu + 2*mu)) <= C1*h*(C1*B + 2*M)).
  { rewrite Rabs_mult. apply Rmult_le_compat; try apply Rabs_pos; auto. eapply Rle_trans; [apply Rabs_triang|]. apply Rplus_le_compat.
    - eapply Rle_trans; [exact A1|]. apply Rmult_le_compat_l; lra.
    - rewrite Rabs_mult, (Rabs_pos_eq 2) by lra. lra. }
  eapply Rle_trans; [apply Rabs_triang|]. rewrite Rabs_Ropp. replace ((C2 + C1*(2*M + C1*B))*h) with (C2*h + C1*h*(C1*B + 2*M)) by ring. apply Rplus_le_compat; auto.
Qed.
Lemma bound_1 k t : 0 < k -> 0 <= t -> 0 <= 1 - exp (- k*t) <= 1.
Proof. intros K T. assert (0 < exp (- k*t)) by apply exp_pos. assert (0 <= k*t) by (apply Rmult_le_pos; lra). assert (exp (- k*t) <= 1) by (rewrite <- exp_0; apply exp_le; lra). lra. Qed.

Section Entry.
Variables vx vy vmu vsigma vtheta vk vxi vr T : R.
Hypothesis X0 : 0 < vx.
Hypothesis Y0 : 0 <= vy.
Hypothesis T0 : 0 < vtheta.
Hypothesis K0 : 0 < vk.
Hypothesis RH : -1 <= vr <= 1.
Hypothesis TP : 0 <= T.
Lemma rho_sq : vr*vr <= 1.
Proof using RH. nra. Qed.

Theorem C76_log_mean : exists C, 0 <= C /\ forall (full : bool) (G : Type) (L : nat -> (G -> R) -> R) X Y w (x0 y0 mu sigma theta k xi : arr R) r timeline t0 h d i ix,
  heston_simulation full L X Y w x0 y0 mu sigma theta k xi r timeline t0 T h d -> (i < len timeline)%nat -> inb w ix -> heston_entry ix x0 y0 mu sigma theta k xi r vx vy vmu vsigma vtheta vk vxi vr ->
  0 < h <= 1 -> 4*(vk*h) <= 1 ->
  Rabs (L d (fun g => ln (X g i ix)) - heston_log_mean vx vmu vsigma vy vtheta vk vxi vr (nth i timeline 0 - t0)) <= C*h.
Proof using X0 Y0 T0 K0 RH TP.
  destruct (lmean_many vmu vsigma vr vtheta vk vxi K0 T0 rho_sq (ln vx) vy T Y0 TP) as (C & CP & H). exists C. split; [exact CP|].
  intros full G L X Y w x0 y0 mu sigma theta k xi r timeline t0 h d i ix HS Hi HI (E1 & E2 & E3 & E4 & E5 & E6 & E7 & E8) H0 H4. subst.
  destruct (heston_steps full L X Y w x0 y0 mu sigma theta k xi r timeline t0 T h d HS i ix Hi HI K0 T0) as (_ & hs & N & HH & SP & ST & HL).
  rewrite (HL (fun x _ => x) (tame2_x _ tame_id) (or_intror (fun _ _ _ => eq_refl))), <- (lmean_eq _ _ _ _ _ _ K0), <- SP. apply H; auto; [repeat split; lra|]. rewrite SP. exact ST.
Qed.
Theorem C76_log_square : exists C, 0 <= C /\ forall (full : bool) (G : Type) (L : nat -> (G -> R) -> R) X Y w (x0 y0 mu sigma theta k xi : arr R) r timeline t0 h d i ix,
  heston_simulation full L X Y w x0 y0 mu sigma theta k xi r timeline t0 T h d -> (i < len timeline)%nat -> inb w ix -> heston_entry ix x0 y0 mu sigma theta k xi r vx vy vmu vsigma vtheta vk vxi vr ->
  0 < h <= 1 -> 4*(vk*h) <= 1 -> let t := nth i timeline 0 - t0 in let m := heston_log_mean vx vmu vsigma vy vtheta vk vxi vr t in
  Rabs (L d (fun g => ln (X g i ix) * ln (X g i ix)) - (heston_log_var vx vmu vsigma vy vtheta vk vxi vr t + m*m)) <= C*h.
Proof using X0 Y0 T0 K0 RH TP.
  destruct (lsq_many vmu vsigma vr vtheta vk vxi K0 T0 rho_sq (ln vx) vy T Y0 TP) as (C & CP & H). exists C. split; [exact CP|].
  intros full G L X Y w x0 y0 mu sigma theta k xi r timeline t0 h d i ix HS Hi HI (E1 & E2 & E3 & E4 & E5 & E6 & E7 & E8) H0 H4 t m. subst.
  destruct (heston_steps full L X Y w x0 y0 mu sigma theta k xi r timeline t0 T h d HS i ix Hi HI K0 T0) as (_ & hs & N & HH & SP & ST & HL).
  rewrite (HL (fun x _ => x*x) (tame2_x _ (tame_mult _ _ tame_id tame_id)) (or_intror (fun _ _ _ => eq_refl))). unfold m. rewrite <- (lsq_eq _ _ _ _ _ _ K0). unfold t. rewrite <- SP. apply H; auto; [repeat split; lra|]. rewrite SP. exact ST.
Qed.
Lemma time_pos full (G : Type) (L : nat -> (G -> R) -> R) X Y w (x0 y0 mu sigma theta k xi : arr R) r timeline t0 h d i ix :
  heston_simulation full L X Y w x0 y0 mu sigma theta k xi r timeline t0 T h d -> (i < len timeline)%nat -> inb w ix -> heston_entry ix x0 y0 mu sigma theta k xi r vx vy vmu vsigma vtheta vk vxi vr ->
  0 <= nth i timeline 0 - t0 <= T.
Proof using T0 K0.
  clear X0 Y0 RH TP. intros HS Hi HI (E1 & E2 & E3 & E4 & E5 & E6 & E7 & E8). subst. destruct (heston_steps full L X Y w x0 y0 mu sigma theta k xi r timeline t0 T h d HS i ix Hi HI K0 T0) as (_ & hs & N & HH & SP & ST & _).
  split; [|exact ST]. rewrite <- SP. apply (span_ge hs N (fun n Hn => proj1 (HH n Hn)) N 0%nat). lia.
Qed.
Lemma log_mean_bound t : 0 <= t <= T -> Rabs (heston_log_mean vx vmu vsigma vy vtheta vk vxi vr t) <= Rabs (ln vx) + vsigma*vsigma*Rabs (vtheta - vy)/(2*vk) + Rabs (vmu - vtheta*vsigma*vsigma/2)*T.
Proof using K0.
  clear X0 Y0 RH TP T0. intro HT. unfold heston_log_mean. cbv zeta. destruct (bound_1 vk t K0 ltac:(lra)) as [A B].
  eapply Rle_trans; [apply Rabs_triang|]. apply Rplus_le_compat.
  - eapply Rle_trans; [apply Rabs_triang|]. apply Rplus_le_compat; [lra|]. unfold Rdiv. rewrite !Rabs_mult.
    assert (I : 0 < /(2*vk)) by (apply Rinv_0_lt_compat; lra). rewrite (Rabs_pos_eq (/ _)) by lra. rewrite <- Rabs_mult. rewrite (Rabs_pos_eq (vsigma*vsigma)) by (apply Rle_0_sqr). apply Rmult_le_compat_r; [lra|].
    rewrite (Rabs_pos_eq (1 - _)) by lra. assert (0 <= vsigma*vsigma*Rabs (vtheta - vy)) by (apply Rmult_le_pos; [apply Rle_0_sqr|apply Rabs_pos]).
    rewrite <- (Rmult_1_r (vsigma*vsigma*Rabs (vtheta - vy))) at 2. apply Rmult_le_compat_l; auto.
  - rewrite Rabs_mult, (Rabs_pos_eq t) by lra. apply Rmult_le_compat_l; [apply Rabs_pos|lra].
Qed.
(** the variance *)
Theorem C76_log_var : exists C, 0 <= C /\ forall (full : bool) (G : Type) (L : nat -> (G -> R) -> R) X Y w (x0 y0 mu sigma theta k xi : arr R) r timeline t0 h d i ix,
  heston_simulation full L X Y w x0 y0 mu sigma theta k xi r timeline t0 T h d -> (i < len timeline)%nat -> inb w ix -> heston_entry ix x0 y0 mu sigma theta k xi r vx vy vmu vsigma vtheta vk vxi vr ->
  0 < h <= 1 -> 4*(vk*h) <= 1 ->
  Rabs (L d (fun g => ln (X g i ix) * ln (X g i ix)) - L d (fun g => ln (X g i ix)) * L d (fun g => ln (X g i ix)) - heston_log_var vx vmu vsigma vy vtheta vk vxi vr (nth i timeline 0 - t0)) <= C*h.
Proof using X0 Y0 T0 K0 RH TP.
  destruct C76_log_mean as (C1 & P1 & H1). destruct C76_log_square as (C2 & P2 & H2).
  set (M := Rabs (ln vx) + vsigma*vsigma*Rabs (vtheta - vy)/(2*vk) + Rabs (vmu - vtheta*vsigma*vsigma/2)*T).
  assert (MP : 0 <= M) by (eapply Rle_trans; [apply Rabs_pos|apply (log_mean_bound 0)]; lra).
  exists (C2 + C1*(2*M + C1*1)). split; [assert (0 <= C1*(2*M + C1*1)) by (apply Rmult_le_pos; lra); lra|].
  intros full G L X Y w x0 y0 mu sigma theta k xi r timeline t0 h d i ix HS Hi HI EV H0 H4.
  assert (A1 := H1 full G L X Y w x0 y0 mu sigma theta k xi r timeline t0 h d i ix HS Hi HI EV H0 H4). assert (A2 := H2 full G L X Y w x0 y0 mu sigma theta k xi r timeline t0 h d i ix HS Hi HI EV H0 H4). cbv zeta in A2.
  assert (TT := time_pos full G L X Y w x0 y0 mu sigma theta k xi r timeline t0 h d i ix HS Hi HI EV).
  eapply var_close; [exact P1|lra|apply log_mean_bound; exact TT|exact A1|exact A2].
Qed.
(** the characteristic function, as computed by heston_log_chf *)
Theorem C76_log_chf u : vxi <> 0 -> exists C h0, 0 <= C /\ 0 < h0 /\ forall (full : bool) (G : Type) (L : nat -> (G -> R) -> R) X Y w (x0 y0 mu sigma theta k xi : arr R) r timeline t0 h d i ix,
  heston_simulation full L X Y w x0 y0 mu sigma theta k xi r timeline t0 T h d -> (i < len timeline)%nat -> inb w ix -> heston_entry ix x0 y0 mu sigma theta k xi r vx vy vmu vsigma vtheta vk vxi vr ->
  0 < h <= h0 -> let chf := heston_log_chf vx vmu vsigma vy vtheta vk vxi vr (nth i timeline 0 - t0) u in
  Rabs (L d (fun g => cos (u * ln (X g i ix))) - fst chf) <= C*h /\ Rabs (L d (fun g => sin (u * ln (X g i ix))) - snd chf) <= C*h.
Proof using X0 Y0 T0 K0 RH TP.
  intro XI.
  destruct (vchf_many cos (or_introl eq_refl) vmu vsigma vr vtheta vk vxi u K0 T0 XI RH (ln vx) vy T Y0 TP) as (C1 & h1 & CP1 & HP1 & H1).
  destruct (vchf_many sin (or_intror eq_refl) vmu vsigma vr vtheta vk vxi u K0 T0 XI RH (ln vx) vy T Y0 TP) as (C2 & h2 & CP2 & HP2 & H2).
  exists (C1 + C2), (Rmin (Rmin h1 h2) (Rmin 1 (/(4*vk)))). split; [lra|]. assert (I : 0 < /(4*vk)) by (apply Rinv_0_lt_compat; lra).
  split; [repeat apply Rmin_glb_lt; lra|].
  intros full G L X Y w x0 y0 mu sigma theta k xi r timeline t0 h d i ix HS Hi HI (E1 & E2 & E3 & E4 & E5 & E6 & E7 & E8) [HP HM] chf. subst.
  assert (Q1 := Rmin_l (Rmin h1 h2) (Rmin 1 (/(4*bget k ix)))). assert (Q2 := Rmin_r (Rmin h1 h2) (Rmin 1 (/(4*bget k ix)))). assert (Q3 := Rmin_l h1 h2). assert (Q4 := Rmin_r h1 h2). assert (Q5 := Rmin_l 1 (/(4*bget k ix))). assert (Q6 := Rmin_r 1 (/(4*bget k ix))).
  assert (SM : small (bget k ix) h).
  { split; [lra|]. split; [|lra]. assert (Z : 4*bget k ix*h <= 4*bget k ix*/(4*bget k ix)) by (apply Rmult_le_compat_l; lra). rewrite Rinv_r in Z by lra. lra. }
  destruct (heston_steps full L X Y w x0 y0 mu sigma theta k xi r timeline t0 T h d HS i ix Hi HI K0 T0) as (_ & hs & N & HH & SP & ST & HL).
  assert (TT : forall trig : R -> R, trig = cos \/ trig = sin -> tame (fun x => trig (u*x))).
  { intros trig TR. split.
    - intro x. apply (continuous_comp (fun x => u*x) trig); [apply (continuous_mult (K := R_AbsRing) (fun _ : R => u) (fun x : R => x)); [apply continuous_const|apply continuous_id]|apply trig_cont; exact TR].
    - exists 1, 0. split; [lra|]. split; [lra|]. intro x. assert (A := ch_ge 0 x). assert (B := trig_le trig TR (u*x)). lra. }
  rewrite (HL (fun x _ => cos (u*x)) (tame2_x _ (TT cos (or_introl eq_refl))) (or_intror (fun _ _ _ => eq_refl))), (HL (fun x _ => sin (u*x)) (tame2_x _ (TT sin (or_intror eq_refl))) (or_intror (fun _ _ _ => eq_refl))).
  unfold chf. rewrite vchf_eq, <- SP. cbn [fst snd]. split.
  - eapply Rle_trans; [apply (H1 hs N h SM ltac:(lra) HH); rewrite SP; exact ST|]. apply Rmult_le_compat_r; lra.
  - eapply Rle_trans; [apply (H2 hs N h SM ltac:(lra) HH); rewrite SP; exact ST|]. apply Rmult_le_compat_r; lra.
Qed.

(** *** the variance, as given by full_heston_process *)
Theorem C76_variance_moments : exists C, 0 <= C /\ forall (G : Type) (L : nat -> (G -> R) -> R) X Y w (x0 y0 mu sigma theta k xi : arr R) r timeline t0 h d i ix,
  heston_simulation true L X Y w x0 y0 mu sigma theta k xi r timeline t0 T h d -> (i < len timeline)%nat -> inb w ix -> heston_entry ix x0 y0 mu sigma theta k xi r vx vy vmu vsigma vtheta vk vxi vr ->
  0 < h -> 4*(vk*h) <= 1 -> let t := nth i timeline 0 - t0 in
  Rabs (L d (fun g => Y g i ix) - cir_mean vy vtheta vk vxi t) <= C*h /\
  Rabs (L d (fun g => Y g i ix * Y g i ix) - L d (fun g => Y g i ix) * L d (fun g => Y g i ix) - cir_var vy vtheta vk vxi t) <= C*h.
Proof using Y0 T0 K0 TP.
  clear X0 RH.
  destruct (mean_many vtheta vk vxi K0 T0 vy T Y0 TP) as (C1 & CP1 & H1). destruct (sq_many vtheta vk vxi K0 T0 vy T Y0 TP) as (C2 & CP2 & H2).
  set (M := vy + vtheta). set (B := /(4*vk)). assert (BP : 0 < B) by (apply Rinv_0_lt_compat; lra).
  set (C3 := C2 + C1*(2*M + C1*B)). assert (Z1 : 0 <= C1*(2*M + C1*B)) by (apply Rmult_le_pos; [auto|]; assert (0 <= C1*B) by (apply Rmult_le_pos; lra); unfold M; lra).
  exists (C1 + C3). split; [unfold C3; lra|].
  intros G L X Y w x0 y0 mu sigma theta k xi r timeline t0 h d i ix HS Hi HI EV H0 H4 t.
  assert (TT : 0 <= t <= T) by exact (time_pos true G L X Y w x0 y0 mu sigma theta k xi r timeline t0 h d i ix HS Hi HI EV).
  destruct EV as (E1 & E2 & E3 & E4 & E5 & E6 & E7 & E8). subst.
  destruct (heston_steps true L X Y w x0 y0 mu sigma theta k xi r timeline t0 T h d HS i ix Hi HI K0 T0) as (_ & hs & N & HH & SP & ST & HL).
  assert (A1 := HL (fun _ y => y) (tame2_y _ tame_id) (or_introl eq_refl)). rewrite (itr2_y _ _ _ _ _ _ hs (fun y => y)) in A1.
  assert (A2 := HL (fun _ y => y*y) (tame2_y _ (tame_mult _ _ tame_id tame_id)) (or_introl eq_refl)). rewrite (itr2_y _ _ _ _ _ _ hs (fun y => y*y)) in A2.
  cbv beta in A1, A2. rewrite A1, A2. fold t in SP.
  assert (B1 := H1 hs N h H0 H4 HH ltac:(rewrite SP; exact ST)). assert (B2 := H2 hs N h H0 H4 HH ltac:(rewrite SP; exact ST)).
  rewrite (vmean_eq _ _ (bget xi ix)), SP in B1. rewrite (vsq_eq _ _ _ K0), SP in B2. split.
  - eapply Rle_trans; [exact B1|]. apply Rmult_le_compat_r; unfold C3; lra.
  - eapply Rle_trans; [eapply (var_close _ _ _ _ C1 C2 h M B CP1); [|  |exact B1|exact B2]|].
    + split; [lra|]. apply Rmult_le_reg_r with (4*bget k ix); [lra|]. unfold B. rewrite Rinv_l; lra.
    + destruct (bound_1 (bget k ix) t K0 ltac:(lra)) as [Q1 Q2]. unfold cir_mean, M. cbv zeta. set (e := exp (- bget k ix*t)) in *. replace (1 - exp (- bget k ix*t)) with (1 - e) in * by reflexivity.
      assert (0 <= bget y0 ix*e <= bget y0 ix*1) by (split; [apply Rmult_le_pos; lra|apply Rmult_le_compat_l; lra]). assert (0 <= bget theta ix*(1 - e) <= bget theta ix*1) by (split; [apply Rmult_le_pos; lra|apply Rmult_le_compat_l; lra]).
      rewrite Rabs_pos_eq; lra.
    + fold C3. apply Rmult_le_compat_r; lra.
Qed.
(** negative values *)
Theorem C76_variance_negative : exists C, 0 <= C /\ forall (G : Type) (L : nat -> (G -> R) -> R) X Y w (x0 y0 mu sigma theta k xi : arr R) r timeline t0 T h d i ix,
  heston_simulation true L X Y w x0 y0 mu sigma theta k xi r timeline t0 T h d -> (i < len timeline)%nat -> inb w ix -> heston_entry ix x0 y0 mu sigma theta k xi r vx vy vmu vsigma vtheta vk vxi vr ->
  0 < h -> 4*(vk*h) <= 1 -> L d (fun g => Rmax (- Y g i ix) 0) <= C*h.
Proof using Y0 T0 K0.
  clear X0 RH TP.
  destruct (neg_many vtheta vk vxi K0 T0 vy Y0) as (C & CP & H). exists C. split; [exact CP|].
  intros G L X Y w x0 y0 mu sigma theta k xi r timeline t0 T' h d i ix HS Hi HI (E1 & E2 & E3 & E4 & E5 & E6 & E7 & E8) H0 H4. subst.
  destruct (heston_steps true L X Y w x0 y0 mu sigma theta k xi r timeline t0 T' h d HS i ix Hi HI K0 T0) as (_ & hs & N & HH & SP & ST & HL).
  assert (TN : tame (fun x => Rmax (- x) 0)) by (apply (tame_ext (fun z => (fun x => Rmax x 0) (0 + (-1)*z))); [intro; f_equal; ring|apply (tame_aff (fun x => Rmax x 0)), tame_max]).
  assert (A := HL (fun _ y => Rmax (- y) 0) (tame2_y _ TN) (or_introl eq_refl)). rewrite (itr2_y _ _ _ _ _ _ hs (fun y => Rmax (- y) 0)) in A. cbv beta in A. rewrite A. apply H; auto.
Qed.
End Entry.
Print Assumptions C76_log_mean.
Print Assumptions C76_log_square.
Print Assumptions C76_log_var.
Print Assumptions C76_log_chf.
Print Assumptions C76_variance_moments.
Print Assumptions C76_variance_negative.

(** *** Examples: with a reference generator, a process with initial price 2, drift, volatility, mean reversion, level and initial
    value of the variance 1, volatility of the variance 2 and correlation -1/2, in n equal steps from 0 to 1; one path, or two
    antithetic ones *)
Section Ex.
Definition ex_hes_args : dict (M_sde.param R R) := [("mu"%string, PConst (ascalar 1)); ("sigma"%string, PConst (ascalar 1)); ("theta"%string, PConst (ascalar 1)); ("k"%string, PConst (ascalar 1)); ("xi"%string, PConst (ascalar 2))].
Definition ex_rho : input R := IArr (ascalar (-1/2)).
Definition ex_source (anti : bool) := source_dw (the_normal []) (pair_mvnormal []) (given_dw (the_normal []) (pair_mvnormal []) anti INone ex_rho) INone ex_rho (if anti then 2 else 1) [2%nat].
Definition ex_heston (full anti : bool) (s : src (V := R) (G := gen) (arr R)) (n : nat) (X Y : gen -> nat -> list nat -> R) : Prop :=
  ex_source anti = Ok s /\ forall g, exists s' xx,
    sde_call Rminus ((if full then full_heston_process else heston_process) (at_step s) (fun l => l) false [] (if anti then 2 else 1)%nat (ascalar 2) (ascalar 1) ex_hes_args) 0
      (pace ex_linspace (StepsScalar (S n))) (n + 3) (g, ascalar 0%nat) [2%nat] [0; 1] = Ok (s', xx) /\ len xx = 2%nat /\ heston_values full [] (if anti then 2 else 1)%nat xx (X g) (Y g).
Lemma ex_pair_source anti s : ex_source anti = Ok s ->
  pair_source (the_law []) (the_normal []) (pair_mvnormal []) anti INone ex_rho (fun _ i j => if Nat.eq_dec i j then 1 else -1/2) 1 (if anti then 2 else 1)%nat (heston_vshape []) s.
Proof.
  intro HS. split; [apply the_is_law|]. split; [apply the_normal_ok|]. split; [apply pair_mvnormal_ok|]. split; [|split; [|split; [destruct anti; reflexivity|exact HS]]].
  - intros v M E t. destruct v as [|a [|b v]]; try discriminate. injection E as <-. apply pair_pairs.
  - right. right. exists [], 1%nat. split; [reflexivity|]. split; [reflexivity|]. intro t. exists (ascalar (-1/2)). split; [reflexivity|]. split; [left; split; reflexivity|].
    intros i j Hi Hj. destruct i as [|[|i]], j as [|[|j]]; try lia; cbn; reflexivity.
Qed.
Lemma ex_hes_steps (full anti : bool) n s X Y : (0 < n)%nat -> ex_heston full anti s n X Y ->
  heston_simulation full (the_law []) X Y [if anti then 2 else 1]%nat (ascalar 2) (ascalar 1) (ascalar 1) (ascalar 1) (ascalar 1) (ascalar 1) (ascalar 2) (fun _ => -1/2) [0; 1] 0 1 (1/INR n) (n + 3).
Proof.
  intros Hn [HS HX]. destruct (ex_steps n Hn) as [ST LP].
  exists (the_normal []), (pair_mvnormal []), anti, INone, ex_rho, (fun _ i j => if Nat.eq_dec i j then 1 else -1/2), 1%nat, (if anti then 2 else 1)%nat, [], s, (fun l => l), false, ex_hes_args, (pace ex_linspace (StepsScalar (S n))), (n + 3)%nat, (ascalar 0%nat).
  split; [reflexivity|]. split; [exact (ex_pair_source anti s HS)|]. split; [intro l; apply Permutation_refl|]. split; [intros t ix _; reflexivity|].
  split; [repeat split|]. split; [repeat split; apply ex_b|]. split; [exact ST|]. split; [rewrite LP; cbn; lia|]. exact HX.
Qed.
Example C76_ex_runs (full anti : bool) n : (0 < n)%nat -> exists s X Y, ex_heston full anti s n X Y.
Proof.
  intro Hn. assert (HS : exists s, ex_source anti = Ok s) by (destruct anti; eexists; reflexivity). destruct HS as [s HS]. destruct (ex_steps n Hn) as [ST LP].
  destruct (C76_runs full gen (the_law []) (the_normal []) (pair_mvnormal []) anti INone ex_rho (fun _ i j => if Nat.eq_dec i j then 1 else -1/2) 1%nat (if anti then 2 else 1)%nat [] s (fun l => l) false
    (ascalar 2) (ascalar 1) (ascalar 1) (ascalar 1) (ascalar 1) (ascalar 1) (ascalar 2) (fun _ => -1/2) ex_hes_args (pace ex_linspace (StepsScalar (S n))) (n + 3) (ascalar 0%nat) [0; 1] 0 1 (1/INR n) (n + 3))
    as (X & Y & _ & HX); try apply ex_b; try reflexivity; auto.
  - exact (ex_pair_source anti s HS).
  - rewrite LP. cbn. lia.
  - exists s, X, Y. split; [exact HS|exact HX].
Qed.
Lemma ex_hes_entry ix : heston_entry ix (ascalar 2) (ascalar 1) (ascalar 1) (ascalar 1) (ascalar 1) (ascalar 1) (ascalar 2) (fun _ => -1/2) 2 1 1 1 1 1 2 (-1/2).
Proof. repeat split. Qed.
(** the mean of the price at time 1 is 2 e, with any number of steps, for each of two antithetic paths *)
Example C76_ex_price full n s X Y p : (0 < n)%nat -> (p < 2)%nat -> ex_heston full true s n X Y -> the_law [] (n + 3) (fun g => X g 1%nat [p]) = 2*exp 1.
Proof.
  intros Hn Hp H. assert (P := C76_price full gen (the_law []) X Y [2%nat] _ _ _ _ _ _ _ _ _ _ _ _ _ 1%nat [p] (ex_hes_steps full true n s X Y Hn H) ltac:(cbn; lia) ltac:(constructor; [exact Hp|constructor]) ltac:(cbn; lra) ltac:(cbn; lra) ltac:(cbn; lra) ltac:(lra)).
  rewrite P. cbn [nth]. change (bget (ascalar 2) [p]) with 2. change (bget (ascalar 1) [p]) with 1. f_equal. f_equal. ring.
Qed.
(** the mean of its logarithm tends to ln 2 + 1/2, and its variance to (1 + 6/e - 1/e^2)/2 *)
Example C76_ex_log : exists C, forall full n s X Y, (4 <= n)%nat -> ex_heston full false s n X Y ->
  let E := the_law [] (n + 3)%nat in let x g := ln (X g 1%nat [0%nat]) in
  Rabs (E x - (ln 2 + 1/2)) <= C/INR n /\ Rabs (E (fun g => x g*x g) - E x*E x - (1 + 6*exp (-1) - exp (-1)*exp (-1))/2) <= C/INR n.
Proof.
  destruct (C76_log_mean 2 1 1 1 1 1 2 (-1/2) 1) as (C1 & P1 & H1); try lra. destruct (C76_log_var 2 1 1 1 1 1 2 (-1/2) 1) as (C2 & P2 & H2); try lra. exists (C1 + C2).
  intros full n s X Y Hn HX E x. assert (SI := ex_hes_steps full false n s X Y ltac:(lia) HX). destruct (ex_h n Hn) as [A B].
  assert (A1 : 0 < 1/INR n <= 1) by lra.
  specialize (H1 full _ _ _ _ _ _ _ _ _ _ _ _ _ _ _ _ _ 1%nat [0%nat] SI ltac:(cbn; lia) ltac:(repeat constructor) (ex_hes_entry _) A1 B).
  specialize (H2 full _ _ _ _ _ _ _ _ _ _ _ _ _ _ _ _ _ 1%nat [0%nat] SI ltac:(cbn; lia) ltac:(repeat constructor) (ex_hes_entry _) A1 B).
  assert (C1*(1/INR n) <= (C1 + C2)/INR n /\ C2*(1/INR n) <= (C1 + C2)/INR n) as [Q1 Q2].
  { unfold Rdiv in *. rewrite !Rmult_1_l in *. split; apply Rmult_le_compat_r; lra. }
  cbn [nth] in H1, H2. unfold heston_log_mean in H1. unfold heston_log_var in H2. cbv zeta in H1, H2. replace (- (1)*(1 - 0)) with (-1) in * by ring. split.
  - eapply Rle_trans; [|exact Q1]. eapply Rle_trans; [|exact H1]. right. f_equal. unfold E, x. f_equal. field.
  - eapply Rle_trans; [|exact Q2]. eapply Rle_trans; [|exact H2]. right. f_equal. unfold E, x. f_equal. field.
Qed.
(** the mean of the cosine of the logarithm tends to the real part of the characteristic function *)
Example C76_ex_chf : exists C m, forall full n s X Y, (m <= n)%nat -> ex_heston full false s n X Y ->
  Rabs (the_law [] (n + 3)%nat (fun g => cos (ln (X g 1%nat [0%nat]))) - fst (heston_log_chf 2 1 1 1 1 1 2 (-1/2) 1 1)) <= C/INR n.
Proof.
  destruct (C76_log_chf 2 1 1 1 1 1 2 (-1/2) 1) with (u := 1) as (C & h0 & CP & HP & H); try lra.
  destruct (nfloor_ex (/h0) ltac:(left; apply Rinv_0_lt_compat; auto)) as [m [_ Hm]]. exists C, (S m). intros full n s X Y Hn HX.
  assert (SI := ex_hes_steps full false n s X Y ltac:(lia) HX). assert (Hm2 : /h0 <= INR (S m)) by (rewrite S_INR; lra).
  assert (A2 : 0 < 1/INR n <= h0).
  { assert (INR (S m) <= INR n) by (apply le_INR; lia). assert (0 < /h0) by (apply Rinv_0_lt_compat; auto). unfold Rdiv. rewrite Rmult_1_l. split; [apply Rinv_0_lt_compat; lra|]. rewrite <- (Rinv_inv h0). apply Rinv_le_contravar; lra. }
  destruct (H full _ _ _ _ _ _ _ _ _ _ _ _ _ _ _ _ _ 1%nat [0%nat] SI ltac:(cbn; lia) ltac:(repeat constructor) (ex_hes_entry _) A2) as [Q _]. cbn [nth] in Q. rewrite Rminus_0_r in Q.
  unfold Rdiv in *. rewrite Rmult_1_l in Q. eapply Rle_trans; [|exact Q]. right. f_equal. f_equal. apply (the_is_law []). intro g. rewrite Rmult_1_l. reflexivity.
Qed.
End Ex.
