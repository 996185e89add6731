(** Weak convergence of simulated square root diffusions (cir_process): the moments, the law and the negative parts of values
    computed with steps of length h differ from those of the process by no more than a constant times h. *)
From Coq Require Import String List Arith Bool ZArith Reals Lra Lia Sorted.
From Coquelicot Require Import Coquelicot.
From Verif Require Import Base BaseOrd BaseNum BaseArr M_paths S_paths S_run L_ord L_paths8
  M_process M_source S_source M_sde S_sde L_sde L_sde2 L_sde3 M_presets S_presets L_presets L_presets2 M_integrate S_integrate P_source P_source2 P_source4 S_true2 S_euler L_euler L_euler2
  BaseNd BaseIdx S_process L_nd L_pack L_process P_source3 M_rv S_rv M_analytical S_analytical M_dist S_dist L_line S_law P_chf L_law L_law2 L_law4 L_law5 S_gval L_gval L_gval2 L_gval3 L_gval4 S_tval L_tval L_tval2 L_tval3 L_tval4 L_tval6
  S_pdf S_cir L_coefs L_cir P_moments P_cir L_gop L_cirop L_cirop2 L_cirop3 L_nrun L_cirrun L_weier L_cirlim S_cirlaw L_law8 L_gval6 P_gval P_tval P_euler.
From Verif Require L_gamma.
Import ListNotations.
Local Open Scope R_scope.
Notation len := List.length.

Lemma span_gap gr m : forall n, span (gap gr) m n = nth (n + m) gr 0 - nth n gr 0.
Proof.
  induction m as [|m IH]; intro n; cbn [span]; [rewrite Nat.add_0_r; lra|]. rewrite IH. unfold gap. replace (S n + m)%nat with (n + S m)%nat by lia. ring.
Qed.

(** runs succeed, and means of functions of an entry are those of iterated steps *)
Lemma cir_steps {G I} (L : nat -> (G -> R) -> R) X w (x0 theta k xi : arr R) timeline t0 T h d : cir_simulation I L X w x0 theta k xi timeline t0 T h d ->
  forall i ix, (i < len timeline)%nat -> inb w ix -> 0 < bget k ix -> 0 < bget theta ix ->
  exists hs N, (forall n, (n < N)%nat -> 0 <= hs n <= h) /\ span hs N 0 = nth i timeline 0 - t0 /\ nth i timeline 0 - t0 <= T /\
    forall f, tame f -> L d (fun g => f (X g i ix)) = itr (bget theta ix) (bget k ix) (bget xi ix) hs N 0 f (bget x0 ix).
Proof.
  intros (normal & mvnormal & anti & c & n & paths & vshape & s & gi & args & pace_fn & fuel & inf & -> & HS & AT & AK & AX & B0 & BT & BK & BX & (V0 & N0 & HT & HD & Hh & HFI) & HF & HX) i ix Hi HI K0 T0.
  destruct (cir_values (I := I) L (proj1 HS) vshape paths (at_step s) (noise_entry _ _ _ _ _ _ _ _ _ HS) gi x0 theta k xi args B0 AT AK AX BT BK BX pace_fn fuel inf timeline t0 V0 N0 HF)
    as (_ & gr & kk & OT & LG & H).
  destruct OT as [(GP & GF & E0 & GK) _]. destruct (GK i Hi) as [K1 K2].
  exists (gap gr), (kk i). split; [|split; [|split]].
  - intros m Hm. split; [left; apply GP; lia|apply GF; auto; lia].
  - rewrite span_gap. cbn [Nat.add]. rewrite K2, E0. reflexivity.
  - assert (X1 := HT (nth i timeline 0) (nth_In _ _ Hi)). lra.
  - intros f TF. rewrite <- (H i ix d f Hi HI K0 T0 TF HD). apply (proj1 (proj1 HS)). intro g. f_equal. destruct (HX g) as (s' & xx & E & EX). rewrite E. apply EX.
Qed.

(** runs succeed: the simulation exists, for all states of the generator *)
Theorem C75_runs (G I : Type) (L : nat -> (G -> R) -> R) normal mvnormal anti c n paths vshape s gi (x0 theta k xi : arr R) args pace_fn fuel (inf : I) (timeline : list R) t0 T h d :
  let w := (vshape ++ [paths])%list in
  noise_source L normal mvnormal anti INone INone c n paths vshape s ->
  const_arg args "theta" theta -> const_arg args "k" k -> const_arg args "xi" xi ->
  broadcasts (shp x0) w -> broadcasts (shp theta) w -> broadcasts (shp k) w -> broadcasts (shp xi) w ->
  stepped timeline (pace_fn timeline) t0 T h d -> (len timeline + len (pace_fn timeline) <= fuel)%nat ->
  let run (g : G) := sde_call Rminus (cir_process (I := I) (at_step s) gi vshape paths x0 args) 0 pace_fn fuel (g, inf) [len timeline] timeline in
  (forall g, exists s' xx, run g = Ok (s', xx)) /\
  cir_simulation I L (fun g => value_at (run g)) w x0 theta k xi timeline t0 T h d.
Proof.
  intros w HS AT AK AX B0 BT BK BX ST HF run. assert (R1 : forall g, exists s' xx, run g = Ok (s', xx)).
  { destruct ST as (V0 & N0 & _). apply (cir_values (I := I) L (proj1 HS) vshape paths (at_step s) (noise_entry _ _ _ _ _ _ _ _ _ HS) gi x0 theta k xi args B0 AT AK AX BT BK BX pace_fn fuel inf timeline t0 V0 N0 HF). }
  split; [exact R1|]. exists normal, mvnormal, anti, c, n, paths, vshape, s, gi, args, pace_fn, fuel, inf. repeat (split; [solve [auto]|]).
  intro g. destruct (R1 g) as (s' & xx & E). exists s', xx. unfold run in E. split; [exact E|]. intros i ix. unfold run. rewrite E. reflexivity.
Qed.
Print Assumptions C75_runs.

(** *** moments *)
Section Entry.
Variables vx vtheta vk vxi T : R.
Hypothesis X0 : 0 <= vx.
Hypothesis T0 : 0 < vtheta.
Hypothesis K0 : 0 < vk.
Hypothesis TP : 0 <= T.

Theorem C75_mean : exists C, 0 <= C /\ forall (G I : Type) (L : nat -> (G -> R) -> R) X w (x0 theta k xi : arr R) timeline t0 h d i ix,
  cir_simulation I L X w x0 theta k xi timeline t0 T h d -> (i < len timeline)%nat -> inb w ix -> entry_values ix x0 theta k xi vx vtheta vk vxi ->
  0 < h -> 4*(vk*h) <= 1 ->
  Rabs (L d (fun g => X g i ix) - cir_mean vx vtheta vk vxi (nth i timeline 0 - t0)) <= C*h.
Proof using X0 T0 K0 TP.
  destruct (mean_many vtheta vk vxi K0 T0 vx T X0 TP) as (C & CP & H). exists C. split; [exact CP|].
  intros G I L X w x0 theta k xi timeline t0 h d i ix HS Hi HI (E1 & E2 & E3 & E4) H0 H4. subst.
  destruct (cir_steps L X w x0 theta k xi timeline t0 T h d HS i ix Hi HI K0 T0) as (hs & N & HH & SP & ST & HL).
  rewrite (HL (fun x => x) tame_id), <- (vmean_eq _ _ (bget xi ix)), <- SP. apply H; auto. rewrite SP. exact ST.
Qed.
Theorem C75_square : exists C, 0 <= C /\ forall (G I : Type) (L : nat -> (G -> R) -> R) X w (x0 theta k xi : arr R) timeline t0 h d i ix,
  cir_simulation I L X w x0 theta k xi timeline t0 T h d -> (i < len timeline)%nat -> inb w ix -> entry_values ix x0 theta k xi vx vtheta vk vxi ->
  0 < h -> 4*(vk*h) <= 1 -> let t := nth i timeline 0 - t0 in
  Rabs (L d (fun g => X g i ix * X g i ix) - (cir_var vx vtheta vk vxi t + cir_mean vx vtheta vk vxi t * cir_mean vx vtheta vk vxi t)) <= C*h.
Proof using X0 T0 K0 TP.
  destruct (sq_many vtheta vk vxi K0 T0 vx T X0 TP) as (C & CP & H). exists C. split; [exact CP|].
  intros G I L X w x0 theta k xi timeline t0 h d i ix HS Hi HI (E1 & E2 & E3 & E4) H0 H4 t. subst.
  destruct (cir_steps L X w x0 theta k xi timeline t0 T h d HS i ix Hi HI K0 T0) as (hs & N & HH & SP & ST & HL).
  rewrite (HL (fun x => x*x) (tame_mult _ _ tame_id tame_id)), <- (vsq_eq _ _ _ K0). unfold t. rewrite <- SP. apply H; auto. rewrite SP. exact ST.
Qed.
(** the variance *)
Theorem C75_var : exists C, 0 <= C /\ forall (G I : Type) (L : nat -> (G -> R) -> R) X w (x0 theta k xi : arr R) timeline t0 h d i ix,
  cir_simulation I L X w x0 theta k xi timeline t0 T h d -> (i < len timeline)%nat -> inb w ix -> entry_values ix x0 theta k xi vx vtheta vk vxi ->
  0 < h -> 4*(vk*h) <= 1 ->
  Rabs (L d (fun g => X g i ix * X g i ix) - L d (fun g => X g i ix) * L d (fun g => X g i ix) - cir_var vx vtheta vk vxi (nth i timeline 0 - t0)) <= C*h.
Proof using X0 T0 K0 TP.
  destruct C75_mean as (C1 & P1 & H1). destruct C75_square as (C2 & P2 & H2).
  set (M := vx + vtheta). set (B := /(4*vk)).
  assert (BP : 0 < B) by (apply Rinv_0_lt_compat; lra).
  exists (C2 + C1*(2*M + C1*B)). split; [assert (0 <= M) by (unfold M; lra); assert (0 <= C1*B) by nra; nra|].
  intros G I L X w x0 theta k xi timeline t0 h d i ix HS Hi HI EV H0 H4.
  assert (A1 := H1 G I L X w x0 theta k xi timeline t0 h d i ix HS Hi HI EV H0 H4). assert (A2 := H2 G I L X w x0 theta k xi timeline t0 h d i ix HS Hi HI EV H0 H4). cbv zeta in A2.
  assert (TT : 0 <= nth i timeline 0 - t0).
  { destruct EV as (E1 & E2 & E3 & E4). destruct (cir_steps L X w x0 theta k xi timeline t0 T h d HS i ix Hi HI ltac:(rewrite E3; auto) ltac:(rewrite E2; auto)) as (hs & N & HH & SP & _).
    rewrite <- SP. apply (span_ge hs N (fun n Hn => proj1 (HH n Hn)) N 0%nat). lia. }
  set (t := nth i timeline 0 - t0) in *. set (m := L d (fun g => X g i ix)) in *. set (q := L d (fun g => X g i ix * X g i ix)) in *.
  set (mu := cir_mean vx vtheta vk vxi t) in *. set (v := cir_var vx vtheta vk vxi t) in *.
  assert (MU : 0 <= mu <= M).
  { unfold mu, cir_mean, M. assert (0 < exp (- vk*t)) by apply exp_pos. assert (exp (- vk*t) <= 1) by (rewrite <- exp_0; apply exp_le; nra). cbv zeta. nra. }
  assert (HB : h <= B). { apply Rmult_le_reg_r with (4*vk); [lra|]. unfold B. rewrite Rinv_l; lra. }
  replace (q - m*m - v) with (q - (v + mu*mu) - (m - mu)*(m - mu + 2*mu)) by ring.
  assert (D : Rabs ((m - mu)*(m - mu + 2*mu)) <= C1*h*(C1*B + 2*M)).
  { rewrite Rabs_mult. apply Rmult_le_compat; try apply Rabs_pos; auto. eapply Rle_trans; [apply Rabs_triang|]. apply Rplus_le_compat.
    - eapply Rle_trans; [exact A1|]. apply Rmult_le_compat_l; auto.
    - rewrite Rabs_pos_eq; lra. }
  eapply Rle_trans; [apply Rabs_triang|]. rewrite Rabs_Ropp. replace ((C2 + C1*(2*M + C1*B))*h) with (C2*h + C1*h*(C1*B + 2*M)) by ring. apply Rplus_le_compat; auto.
Qed.

(** *** negative values: with steps of length h, the mean of the negative part is no more than C h, at any time *)
Theorem C75_negative : exists C, 0 <= C /\ forall (G I : Type) (L : nat -> (G -> R) -> R) X w (x0 theta k xi : arr R) timeline t0 T h d i ix,
  cir_simulation I L X w x0 theta k xi timeline t0 T h d -> (i < len timeline)%nat -> inb w ix -> entry_values ix x0 theta k xi vx vtheta vk vxi ->
  0 < h -> 4*(vk*h) <= 1 -> 0 <= L d (fun g => Rmax (- X g i ix) 0) <= C*h.
Proof using X0 T0 K0.
  destruct (neg_many vtheta vk vxi K0 T0 vx X0) as (C & CP & H). exists C. split; [exact CP|].
  intros G I L X w x0 theta k xi timeline t0 T' h d i ix HS Hi HI (E1 & E2 & E3 & E4) H0 H4. subst.
  destruct (cir_steps L X w x0 theta k xi timeline t0 T' h d HS i ix Hi HI K0 T0) as (hs & N & HH & SP & ST & HL).
  assert (TN : tame (fun x => Rmax (- x) 0)) by (apply (tame_ext (fun z => (fun x => Rmax x 0) (0 + (-1)*z))); [intro; f_equal; ring|apply (tame_aff (fun x => Rmax x 0)), tame_max]).
  rewrite (HL (fun x => Rmax (- x) 0) TN). split; [|apply H; auto].
  assert (Z : itr (bget theta ix) (bget k ix) (bget xi ix) hs N 0 (fun _ => 0*0) (bget x0 ix) <= itr (bget theta ix) (bget k ix) (bget xi ix) hs N 0 (fun x => Rmax (- x) 0) (bget x0 ix)).
  { apply (itr_le _ _ _ K0 T0 hs N (fun n Hn => proj1 (HH n Hn))); auto; [apply tame_const|]. intro x. rewrite Rmult_0_l. apply Rmax_r. }
  rewrite (itr_scal _ _ _ K0 T0 hs N (fun n Hn => proj1 (HH n Hn)) 0 (fun _ => 0)) in Z; auto; [|apply tame_const]. lra.
Qed.

(** *** the law: Laplace transforms of values tend to those of the density that is computed by cir_pdf, which are those of any
    law of the process *)
Theorem C75_law gamma iv a b s : euler_gamma gamma -> bessel_i gamma iv -> 0 < vx -> vxi <> 0 -> 0 <= s ->
  coef cir_sde (cir_args vtheta vk vxi) "dt" a -> coef cir_sde (cir_args vtheta vk vxi) "dw" b ->
  exists (p : R -> R -> R) (La : R -> R) (C h0 : R),
    (forall t x, 0 < t -> 0 < x -> cir_pdf iv vx vtheta vk vxi t x = Some (p t x)) /\
    (forall t, 0 < t -> half_line (fun x => exp (- (s*x))*p t x) (La t)) /\
    (forall t E, 0 < t -> law1 nonneg a b vx t E -> E (fun x => exp (- (s*x))) = La t) /\
    La 0 = exp (- (s*vx)) /\ 0 <= C /\ 0 < h0 /\
    forall (G I : Type) (L : nat -> (G -> R) -> R) X w (x0 theta k xi : arr R) timeline t0 h d i ix,
      cir_simulation I L X w x0 theta k xi timeline t0 T h d -> (i < len timeline)%nat -> inb w ix -> entry_values ix x0 theta k xi vx vtheta vk vxi ->
      0 < h <= h0 -> Rabs (L d (fun g => exp (- (s * X g i ix))) - La (nth i timeline 0 - t0)) <= C*h.
Proof using X0 T0 K0 TP.
  intros GA B XP XI S CA CB. pose proof (coef_fun _ _ _ _ _ CA (cir_dt vtheta vk vxi)) as HA. pose proof (coef_fun _ _ _ _ _ CB (cir_dw vtheta vk vxi)) as HB.
  assert (KT : 0 < vk*vtheta) by nra. pose proof (q_gt vtheta vk vxi KT XI) as QG.
  destruct (lap_many vtheta vk vxi K0 T0 vx T s XI S X0 TP) as (C & CP & H).
  exists (pp vx vtheta vk vxi gamma), (fun t => lap vtheta vk vxi s t vx), C, (h0 vk vxi s).
  split; [intros; apply pdf_form; auto|split; [|split; [|split; [|split; [exact CP|split; [apply h0_pos; auto|]]]]]].
  - intros t TT. rewrite <- lap_mix by auto. apply dens_laplace; auto; [apply (cc_pos vtheta); auto|apply (uu_pos vx vtheta); auto|].
    pose proof (cc_pos vtheta vk vxi KT XI t TT). lra.
  - intros t E TT HE. apply (lap_law vx vtheta vk vxi KT XI s S a b t HA HB E); auto. lra.
  - apply lap_start.
  - intros G I L X w x0 theta k xi timeline t0 h d i ix HS Hi HI (E1 & E2 & E3 & E4) Hh. subst.
    destruct (cir_steps L X w x0 theta k xi timeline t0 T h d HS i ix Hi HI K0 T0) as (hs & N & HH & SP & ST & HL).
    assert (TE : tame (fun x => exp (- (s*x)))) by (apply (tame_ext (fun z => exp (0 + (-s)*z))); [intro; f_equal; ring|apply tame_exp]).
    rewrite (HL _ TE), <- SP. apply H; auto. rewrite SP. exact ST.
Qed.
End Entry.
Print Assumptions C75_mean.
Print Assumptions C75_square.
Print Assumptions C75_var.
Print Assumptions C75_negative.
Print Assumptions C75_law.

(** *** convergence in law: means of bounded continuous functions of values tend to integrals on the density that is computed by
    cir_pdf, as the steps shrink, uniformly on timelines and times up to T *)
Theorem C75_converges gamma iv vx vtheta vk vxi T phi B eps : euler_gamma gamma -> bessel_i gamma iv -> 0 < vx -> 0 < vtheta -> 0 < vk -> vxi <> 0 -> 0 <= T ->
  (forall x, continuous phi x) -> (forall x, Rabs (phi x) <= B) -> 0 < eps ->
  exists (p : R -> R -> R) (F : R -> R) (h1 : R),
    (forall t x, 0 < t -> 0 < x -> cir_pdf iv vx vtheta vk vxi t x = Some (p t x)) /\
    (forall t, 0 < t -> half_line (fun x => phi x*p t x) (F t)) /\ 0 < h1 /\
    forall (G I : Type) (L : nat -> (G -> R) -> R) X w (x0 theta k xi : arr R) timeline t0 h d i ix,
      cir_simulation I L X w x0 theta k xi timeline t0 T h d -> (i < len timeline)%nat -> inb w ix -> entry_values ix x0 theta k xi vx vtheta vk vxi ->
      t0 < nth i timeline 0 -> 0 < h <= h1 -> Rabs (L d (fun g => phi (X g i ix)) - F (nth i timeline 0 - t0)) <= eps.
Proof.
  intros GA BI XP TP KP XI TT CP BP EP. assert (KT : 0 < vk*vtheta) by nra. pose proof (q_gt vtheta vk vxi KT XI) as QG.
  set (p := pp vx vtheta vk vxi gamma).
  assert (HH : forall t, 0 < t -> exists v, half_line (fun x => phi x*p t x) v) by (intros; eapply phi_half; eauto).
  exists p, (fun t => RInt_gen (V := R_CompleteNormedModule) (fun x => phi x*p t x) (at_right 0) (Rbar_locally p_infty)).
  assert (HF : forall t, 0 < t -> half_line (fun x => phi x*p t x) (RInt_gen (V := R_CompleteNormedModule) (fun x => phi x*p t x) (at_right 0) (Rbar_locally p_infty))).
  { intros t P. apply (RInt_gen_correct (V := R_CompleteNormedModule)). destruct (HH t P) as [v V]. exists v. exact V. }
  destruct (phi_many vx vtheta vk vxi gamma XP TP KP XI GA phi B CP BP T eps TT EP) as (h1 & H1 & H). exists h1.
  split; [intros; apply pdf_form; auto|]. split; [exact HF|]. split; [exact H1|].
  intros G I L X w x0 theta k xi timeline t0 h d i ix HS Hi HI (E1 & E2 & E3 & E4) TI Hh. subst.
  destruct (cir_steps L X w x0 theta k xi timeline t0 T h d HS i ix Hi HI KP TP) as (hs & N & HN & SP & ST & HL).
  rewrite (HL phi (phi_tame phi B CP BP)), <- SP. apply (H hs N h); auto; [rewrite SP; lra|]. apply HF. rewrite SP. lra.
Qed.
Print Assumptions C75_converges.

(** *** Examples: with the reference generator, a process of mean reversion 1, level 1, volatility 2 and initial value 2, in n equal
    steps from 0 to 1 *)
Section Ex.
Definition ex_cir_args : dict (M_sde.param R R) := [("theta"%string, PConst (ascalar 1)); ("k"%string, PConst (ascalar 1)); ("xi"%string, PConst (ascalar 2))].
Definition ex_cir {G} (s : src (V := R) (G := G) (arr R)) m n (g : G) (i : nat) (ix : list nat) : R :=
  value_at (sde_call Rminus (cir_process (I := unit) (at_step s) false [] m (ascalar 2) ex_cir_args) 0 (pace ex_linspace (StepsScalar (S n))) (n + 3) (g, tt) [2%nat] [0; 1]) i ix.
Lemma ex_simulation (anti : bool) n s m : (0 < n)%nat -> m = (if anti then 2 else 1)%nat ->
  source_dw (the_normal []) (the_mvnormal []) (given_dw (the_normal []) (the_mvnormal []) anti INone INone) INone INone m [] = Ok s ->
  cir_simulation unit (the_law []) (ex_cir s m n)
    [m] (ascalar 2) (ascalar 1) (ascalar 1) (ascalar 2) [0; 1] 0 1 (1/INR n) (n + 3).
Proof.
  intros Hn HM HS. subst m. destruct (ex_steps n Hn) as [ST LP].
  apply (C75_runs _ unit (the_law []) (the_normal []) (the_mvnormal []) anti (fun _ i j => if Nat.eq_dec i j then 1 else 0) 1%nat (if anti then 2 else 1)%nat [] s false
    (ascalar 2) (ascalar 1) (ascalar 1) (ascalar 2) ex_cir_args (pace ex_linspace (StepsScalar (S n))) (n + 3)%nat tt [0; 1] 0 1 (1/INR n) (n + 3)%nat); try apply ex_b; try reflexivity; auto.
  - exact (ex_noise anti 1 s HS).
  - rewrite LP. cbn. lia.
Qed.
Lemma ex_h n : (4 <= n)%nat -> 0 < 1/INR n /\ 4*(1*(1/INR n)) <= 1.
Proof.
  intro H. assert (N : 4 <= INR n) by (replace 4 with (INR 4) by (cbn; lra); apply le_INR; auto). assert (P : 0 < / INR n) by (apply Rinv_0_lt_compat; lra).
  unfold Rdiv. split; [lra|]. assert (4*/INR n <= INR n*/INR n) by (apply Rmult_le_compat_r; lra). rewrite Rinv_r in * by lra. lra.
Qed.
Lemma ex_entry ix : entry_values ix (ascalar 2) (ascalar 1) (ascalar 1) (ascalar 2) 2 1 1 2.
Proof. repeat split. Qed.
(** the mean and the variance of the value at time 1 tend to those of the process *)
Example C75_ex_moments : exists C, forall n s, (4 <= n)%nat -> source_dw (the_normal []) (the_mvnormal []) GNone INone INone 1 [] = Ok s ->
  let X g := ex_cir s 1 n g 1 [0%nat] in let E := the_law [] (n + 3)%nat in
  Rabs (E (fun g => X g) - (1 + exp (-1))) <= C/INR n /\
  Rabs (E (fun g => X g*X g) - E (fun g => X g)*E (fun g => X g) - (1 - exp (-1))*(2 + 6*exp (-1))) <= C/INR n.
Proof.
  destruct (C75_mean 2 1 1 2 1) as (C1 & P1 & H1); try lra. destruct (C75_var 2 1 1 2 1) as (C2 & P2 & H2); try lra. exists (C1 + C2). intros n s Hn HS X E.
  destruct (ex_h n Hn) as [A B]. assert (SI := ex_simulation false n s 1 ltac:(lia) eq_refl HS).
  specialize (H1 _ _ _ _ _ _ _ _ _ _ _ _ _ 1%nat [0%nat] SI ltac:(cbn; lia) ltac:(repeat constructor) (ex_entry _) A B). specialize (H2 _ _ _ _ _ _ _ _ _ _ _ _ _ 1%nat [0%nat] SI ltac:(cbn; lia) ltac:(repeat constructor) (ex_entry _) A B).
  cbn [nth] in H1, H2. unfold cir_mean, cir_var in H1, H2. cbv zeta in H1, H2. replace (- (1)*(1 - 0)) with (-1) in H1, H2 by ring.
  assert (C1*(1/INR n) <= (C1 + C2)/INR n /\ C2*(1/INR n) <= (C1 + C2)/INR n) as [Q1 Q2].
  { unfold Rdiv in *. rewrite !Rmult_1_l in *. split; apply Rmult_le_compat_r; lra. }
  split.
  - eapply Rle_trans; [|exact Q1]. eapply Rle_trans; [|exact H1]. right. f_equal. unfold E, X. f_equal. lra.
  - eapply Rle_trans; [|exact Q2]. eapply Rle_trans; [|exact H2]. right. f_equal. unfold E, X. f_equal. field.
Qed.
(** the means of the negative part of each of two antithetic paths vanish as well *)
Example C75_ex_negative : exists C, forall n s p, (4 <= n)%nat -> (p < 2)%nat ->
  source_dw (the_normal []) (the_mvnormal []) (given_dw (the_normal []) (the_mvnormal []) true INone INone) INone INone 2 [] = Ok s ->
  the_law [] (n + 3)%nat (fun g => Rmax (- ex_cir s 2 n g 1 [p]) 0) <= C/INR n.
Proof.
  destruct (C75_negative 2 1 1 2) as (C & P & H); try lra. exists C. intros n s p Hn Hp HS. destruct (ex_h n Hn) as [A B]. assert (SI := ex_simulation true n s 2 ltac:(lia) eq_refl HS).
  specialize (H _ _ _ _ _ _ _ _ _ _ _ _ _ _ 1%nat [p] SI ltac:(cbn; lia) ltac:(constructor; [exact Hp|constructor]) (ex_entry _) A B). unfold Rdiv in *. rewrite Rmult_1_l in H. apply H.
Qed.
(** the mean of the cosine of the value tends to its integral on the density that cir_pdf computes *)
Example C75_ex_converges gamma iv : euler_gamma gamma -> bessel_i gamma iv -> exists p v,
  (forall x, 0 < x -> cir_pdf iv 2 1 1 2 1 x = Some (p x)) /\ half_line (fun x => cos x*p x) v /\
  forall eps, 0 < eps -> exists m, forall n s, (m <= n)%nat -> source_dw (the_normal []) (the_mvnormal []) GNone INone INone 1 [] = Ok s ->
    Rabs (the_law [] (n + 3)%nat (fun g => cos (ex_cir s 1 n g 1 [0%nat])) - v) <= eps.
Proof.
  intros GA BI. assert (CC : forall x, continuous cos x) by (intro x; apply (ex_derive_continuous (V := R_NormedModule)); auto_derive; auto).
  assert (CB : forall x, Rabs (cos x) <= 1) by (intro x; apply Rabs_le, COS_bound).
  assert (TH := fun eps H => C75_converges gamma iv 2 1 1 2 1 cos 1 eps GA BI ltac:(lra) ltac:(lra) ltac:(lra) ltac:(lra) ltac:(lra) CC CB H).
  destruct (TH 1 ltac:(lra)) as (p & F & _ & HP & HF & _). exists (p 1), (F 1). split; [intros; apply HP; lra|]. split; [apply HF; lra|].
  intros eps EP. destruct (TH eps EP) as (p' & F' & h1 & HP' & HF' & H1 & H).
  assert (FF : F' 1 = F 1).
  { assert (Z := HF' 1 ltac:(lra)). assert (Y : half_line (fun x => cos x*p' 1 x) (F 1)).
    { apply (L_gamma.half_ext (fun x => cos x*p 1 x)); [apply HF; lra|]. intros x X. assert (A := HP 1 x ltac:(lra) X). rewrite (HP' 1 x ltac:(lra) X) in A. congruence. }
    transitivity (RInt_gen (V := R_CompleteNormedModule) (fun x => cos x*p' 1 x) (at_right 0) (Rbar_locally p_infty)); [symmetry|]; apply (is_RInt_gen_unique (V := R_CompleteNormedModule)); auto. }
  destruct (nfloor_ex (/h1) ltac:(left; apply Rinv_0_lt_compat; auto)) as [m [_ Hm]]. assert (Hm2 : /h1 <= INR (S m)) by (rewrite S_INR; lra). exists (4 + S m)%nat. intros n s Hn HS. destruct (ex_h n ltac:(lia)) as [A _].
  assert (SI := ex_simulation false n s 1 ltac:(lia) eq_refl HS). assert (A2 : 1/INR n <= h1).
  { assert (INR (S m) <= INR n) by (apply le_INR; lia). assert (0 < /h1) by (apply Rinv_0_lt_compat; auto). unfold Rdiv. rewrite Rmult_1_l, <- (Rinv_inv h1). apply Rinv_le_contravar; lra. }
  specialize (H _ _ _ _ _ _ _ _ _ _ _ _ _ 1%nat [0%nat] SI ltac:(cbn; lia) ltac:(repeat constructor) (ex_entry _) ltac:(cbn; lra) (conj A A2)).
  cbn [nth] in H. rewrite Rminus_0_r, FF in H. exact H.
Qed.
End Ex.
