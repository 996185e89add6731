(** Lemmas on the Euler scheme of the Heston process: errors of steps, for the mean and the second moment of the logarithm of
    the price. *)
From Coq Require Import Reals Lra Psatz Lia Classical FunctionalExtensionality.
From Coquelicot Require Import Coquelicot.
From Verif Require Import M_analytical S_rv S_dist L_gauss L_gauss2 L_line L_complex L_gop L_cirop L_cirop2 L_cirop3 L_hesop L_hesop2.
Local Open Scope R_scope.

Lemma bounded_on (g : R -> R) T : 0 <= T -> (forall z, 0 <= z <= T -> continuous g z) -> exists M, 0 <= M /\ forall z, 0 <= z <= T -> Rabs (g z) <= M.
Proof.
  intros HT CG. destruct (continuity_ab_maj (fun z => Rabs (g z)) 0 T HT) as (m & A & B).
  - intros z Z. apply (continuity_pt_comp g Rabs); [|apply Rcontinuity_abs]. apply continuity_pt_filterlim. apply CG. exact Z.
  - exists (Rabs (g m)). split; [apply Rabs_pos|]. exact A.
Qed.
Lemma mvt_on f f' T t u : 0 <= t -> 0 <= u -> u + t <= T -> (forall z, 0 <= z <= T -> is_derive f z (f' z)) -> exists c, t <= c <= u + t /\ f (u + t) - f t = f' c * u.
Proof.
  intros T0 U TT D. destruct (MVT_gen f t (u + t) f') as (c & C & E).
  - intros z [A B]. rewrite Rmin_left in A by lra. rewrite Rmax_right in B by lra. apply D. lra.
  - intros z [A B]. rewrite Rmin_left in A by lra. rewrite Rmax_right in B by lra. apply derivable_continuous_pt. exists (f' z). apply is_derive_Reals. apply D. lra.
  - rewrite Rmin_left, Rmax_right in C by lra. exists c. split; auto. rewrite E. ring.
Qed.
(** a function, its changes and the errors of its linear approximation are bounded *)
Definition tbound (f f' : R -> R) (T M : R) : Prop := forall r d, 0 <= r -> 0 <= d -> d + r <= T ->
  Rabs (f r) <= M /\ Rabs (f (d + r) - f r) <= M*d /\ Rabs (f (d + r) - f r - f' r*d) <= M*(d*d).
Lemma taylor_on f f' f'' T : 0 <= T -> (forall z, 0 <= z <= T -> is_derive f z (f' z)) -> (forall z, 0 <= z <= T -> is_derive f' z (f'' z)) -> (forall z, 0 <= z <= T -> continuous f'' z) ->
  exists M, 0 <= M /\ tbound f f' T M.
Proof.
  intros HT D D' C.
  assert (CF : forall z, 0 <= z <= T -> continuous f z) by (intros z Z; apply (ex_derive_continuous (V := R_NormedModule)); eexists; apply D; exact Z).
  assert (CF' : forall z, 0 <= z <= T -> continuous f' z) by (intros z Z; apply (ex_derive_continuous (V := R_NormedModule)); eexists; apply D'; exact Z).
  destruct (bounded_on f T HT CF) as (M0 & A0 & B0). destruct (bounded_on f' T HT CF') as (M1 & A1 & B1). destruct (bounded_on f'' T HT C) as (M2 & A2 & B2).
  exists (M0 + M1 + M2). split; [lra|]. intros r d R0 D0 DT. split; [|split].
  - specialize (B0 r ltac:(lra)). lra.
  - destruct (mvt_on f f' T r d R0 D0 DT D) as (c & CC & E). rewrite E, Rabs_mult, (Rabs_pos_eq d) by auto. specialize (B1 c ltac:(lra)). apply Rmult_le_compat_r; lra.
  - destruct (mvt_on f f' T r d R0 D0 DT D) as (c & CC & E). rewrite E. destruct (mvt_on f' f'' T r (c - r) R0 ltac:(lra) ltac:(lra) D') as (c' & CC' & E').
    replace (c - r + r) with c in * by ring. replace (f' c*d - f' r*d) with ((f' c - f' r)*d) by ring. rewrite E', !Rabs_mult, (Rabs_pos_eq d), (Rabs_pos_eq (c - r)) by lra. specialize (B2 c' ltac:(lra)).
    rewrite <- Rmult_assoc. apply Rmult_le_compat_r; [auto|]. apply Rmult_le_compat; [apply Rabs_pos|lra|lra|lra].
Qed.
Lemma tbound_mono f f' T M M' : M <= M' -> tbound f f' T M -> tbound f f' T M'.
Proof. intros L H r d R0 D0 DT. destruct (H r d R0 D0 DT) as (A & B & C). assert (DD := Rle_0_sqr d). unfold Rsqr in DD. split; [lra|]. split; [nra|nra]. Qed.

Section Many2.
Variables mu sigma rho theta k xi : R.
Hypothesis K0 : 0 < k.
Hypothesis T0 : 0 < theta.
Hypothesis R1 : rho*rho <= 1.
Notation HQ := (L_hesop2.HQ mu sigma rho theta k xi).
Notation itr2 := (L_hesop2.itr2 mu sigma rho theta k xi).
Notation c2 := (L_hesop2.c2 mu sigma theta k xi).
Definition small (h : R) : Prop := 0 < h /\ 4*(k*h) <= 1 /\ h <= 1.
Definition close_steps (v : R -> R -> R -> R) (T hm : R) : Prop :=
  exists c, 0 <= c /\ forall h, small h -> h <= hm -> forall d r x y, 0 <= d <= h -> 0 <= r -> d + r <= T -> Rabs (HQ d (v r) x y - v (d + r) x y) <= c*h*(d*weight2 xi h x y).
Lemma many_steps2 (v : R -> R -> R -> R) T hm x0 y0 : 0 <= y0 -> 0 <= T -> (forall r, 0 <= r <= T -> tame2 (v r)) -> close_steps v T hm ->
  exists C, 0 <= C /\ forall hs N h, small h -> h <= hm -> (forall n, (n < N)%nat -> 0 <= hs n <= h) -> span hs N 0 <= T ->
    Rabs (itr2 hs N 0 (v 0) x0 y0 - v (span hs N 0) x0 y0) <= C*h.
Proof using K0 T0 R1.
  intros X0 TT VT (c & C0 & ST). set (U := T*exp (c2*T)*sq2 x0 y0 + cst theta k xi + 3*cst theta k xi*T).
  assert (CP := cst_pos theta k xi K0 T0). assert (C2 := c2_pos mu sigma theta k xi K0 T0). exists (c*U). assert (EP := exp_pos (c2*T)). assert (S1 := sq2_ge x0 y0).
  assert (UP : 0 <= U). { unfold U. assert (0 <= T*exp (c2*T)) by nra. assert (0 <= T*exp (c2*T)*sq2 x0 y0) by nra. nra. }
  split; [nra|]. intros hs N h (H & H4 & H1) HM HS ST0.
  assert (A := itr2_close mu sigma rho theta k xi K0 T0 R1 hs N (fun n Hn => proj1 (HS n Hn)) h H (fun n Hn => proj2 (HS n Hn)) H4 H1 v (c*h) T ltac:(nra)
    VT (fun d r x y D R0 DT => ST h (conj H (conj H4 H1)) HM d r x y D R0 DT) N 0%nat x0 y0 ltac:(lia) ST0).
  eapply Rle_trans; [exact A|]. replace (c*U*h) with (c*h*U) by ring. apply Rmult_le_compat_l; [nra|]. unfold upper2, U.
  assert (SG := span_ge hs N (fun n Hn => proj1 (HS n Hn)) N 0 ltac:(lia)). set (r := span hs N 0) in *.
  assert (LW : 0 < low xi h y0 <= 1). { split; [apply low_pos|]. unfold low. rewrite <- exp_0. apply exp_le. assert (LP := lam_pos xi h H). nra. }
  assert (Z1 : r*exp (c2*r) <= T*exp (c2*T)). { apply Rmult_le_compat; try lra; [left; apply exp_pos|]. apply exp_le. nra. }
  assert (Z2 : r*exp (c2*r)*sq2 x0 y0 <= T*exp (c2*T)*sq2 x0 y0) by (apply Rmult_le_compat_r; lra).
  assert (Z3 : cst theta k xi*h*low xi h y0 <= cst theta k xi*1*1) by (apply Rmult_le_compat; nra). nra.
Qed.

(** *** what negative variances may weigh *)
Definition neg (y : R) : R := pos y - y.
Lemma neg_ge y : 0 <= neg y <= Rabs y.
Proof. unfold neg. destruct (pos_cases y) as [[X E]|[X E]]; rewrite E; [rewrite Rabs_pos_eq; lra|rewrite Rabs_left; lra]. Qed.
Lemma neg_weight h y a : 0 < h -> 0 <= a -> neg y*a <= ww xi*h*(low xi h y + a*a).
Proof.
  intros H A. assert (W := ww_pos xi). assert (WH : 0 < ww xi*h) by nra. assert (L := low_pos xi h y). unfold neg. destruct (pos_cases y) as [[X E]|[X E]]; rewrite E.
  - replace ((y - y)*a) with 0 by ring. assert (0 <= a*a) by nra. nra.
  - set (n := 0 - y). assert (N2 := neg_sq xi h H y X). set (g := ww xi*h) in *. assert (B : n*n <= 2*(g*g)*low xi h y) by (unfold n; nra).
    assert (N0 : 0 < n) by (unfold n; lra). set (t := n/g). assert (TN : n = t*g) by (unfold t; field; lra). rewrite TN in *. assert (TT : t*t <= 2*low xi h y).
    { apply Rmult_le_reg_r with (g*g); [nra|]. nra. }
    assert (Z : t*a <= low xi h y + a*a) by (assert (Z0 := Rle_0_sqr (t - a)); unfold Rsqr in Z0; assert (0 <= a*a) by nra; nra). nra.
Qed.
Lemma quad x y : (1 + Rabs x + Rabs y)*(1 + Rabs x + Rabs y) <= 3*sq2 x y.
Proof.
  unfold sq2. assert (X : Rabs x*Rabs x = x*x) by (rewrite <- Rabs_mult; apply Rabs_pos_eq, Rle_0_sqr). assert (Y : Rabs y*Rabs y = y*y) by (rewrite <- Rabs_mult; apply Rabs_pos_eq, Rle_0_sqr).
  assert (A := Rle_0_sqr (Rabs x - Rabs y)). assert (B := Rle_0_sqr (Rabs x - 1)). assert (C := Rle_0_sqr (Rabs y - 1)). unfold Rsqr in *. rewrite <- X, <- Y. lra.
Qed.
(** the error of a step, for functions linear in the variance *)
Definition aff_err (f f' g g' : R -> R) (d r y : R) : R := (f r + f' r*d - f (d + r)) + (g r + g' r*d - g (d + r))*pos y + (g (d + r) - g r)*neg y.
Lemma aff_bound f f' g g' T M h d r y : 0 <= M -> tbound f f' T M -> tbound g g' T M -> 0 <= d <= h -> 0 <= r -> d + r <= T ->
  Rabs (aff_err f f' g g' d r y) <= M*d*(h*(1 + Rabs y) + neg y).
Proof.
  intros M0 TF TG D R0 DT. destruct (TF r d R0 ltac:(lra) DT) as (_ & _ & F2). destruct (TG r d R0 ltac:(lra) DT) as (_ & G1 & G2). destruct (neg_ge y) as [N0 _]. assert (P0 := pos_ge y). assert (P1 := pos_abs y).
  unfold aff_err. replace (f r + f' r*d - f (d + r)) with (- (f (d + r) - f r - f' r*d)) by ring. replace (g r + g' r*d - g (d + r)) with (- (g (d + r) - g r - g' r*d)) by ring.
  eapply Rle_trans; [apply Rabs_triang|]. eapply Rle_trans; [apply Rplus_le_compat_r, Rabs_triang|]. rewrite !Rabs_mult, !Rabs_Ropp, (Rabs_pos_eq (pos y)), (Rabs_pos_eq (neg y)) by auto.
  assert (DD : d*d <= d*h) by nra. assert (Z1 : M*(d*d) <= M*(d*h)) by (apply Rmult_le_compat_l; auto). assert (HD : 0 <= d*h) by nra.
  assert (Z2 : Rabs (g (d + r) - g r - g' r*d)*pos y <= M*(d*h)*Rabs y) by (apply Rmult_le_compat; auto; [apply Rabs_pos|lra]).
  assert (Z3 : Rabs (g (d + r) - g r)*neg y <= M*d*neg y) by (apply Rmult_le_compat_r; auto). lra.
Qed.

(** *** the mean and the second moment *)
Definition al (r : R) : R := exp (-k*r).
Definition ma (r : R) : R := sigma*sigma*theta*(1 - al r)/(2*k) + (mu - theta*sigma*sigma/2)*r.
Definition mb (r : R) : R := - (sigma*sigma*(1 - al r)/(2*k)).
Definition o1 (r : R) : R := (al r*sigma*xi)^2 + 4*al r*((1 + k*r)*(sigma*xi)^2 - 2*rho*k*sigma*xi*(2 + k*r) + 2*k*k) + (2*k*r - 5)*(sigma*xi)^2 - 8*rho*k*sigma*xi*(k*r - 2) + 8*k*k*(k*r - 1).
Definition o2 (r : R) : R := -(al r*sigma*xi)^2 + 2*al r*(-(sigma*xi)^2*k*r + 2*rho*sigma*xi*k*(k*r + 1) - 2*k*k) + (sigma*xi)^2 - 4*rho*k*sigma*xi + 4*k*k.
Definition mc (r : R) : R := sigma*sigma*(theta*o1 r/2)/(4*k^3).
Definition me (r : R) : R := sigma*sigma*o2 r/(4*k^3).
Definition ma' (r : R) : R := mu + k*theta*mb r.
Definition mb' (r : R) : R := - (sigma*sigma)/2 - k*mb r.
Definition mc' (r : R) : R := k*theta*me r.
Definition me' (r : R) : R := - k*me r + sigma*sigma + 2*rho*sigma*xi*mb r + xi*xi*(mb r*mb r).
Lemma al_dt r : is_derive al r (- k*al r).
Proof. unfold al. auto_derive; auto. ring. Qed.
Lemma ma_dt r : is_derive ma r (ma' r).
Proof using K0. unfold ma. eapply deq; [auto_derive; [exists (- k*al r); apply al_dt|reflexivity]|]. replace (Derive (fun x => al x) r) with (- k*al r) by (symmetry; apply is_derive_unique, al_dt). unfold ma', mb. field. lra. Qed.
Lemma mb_dt r : is_derive mb r (mb' r).
Proof using K0. unfold mb. eapply deq; [auto_derive; [exists (- k*al r); apply al_dt|reflexivity]|]. replace (Derive (fun x => al x) r) with (- k*al r) by (symmetry; apply is_derive_unique, al_dt). unfold mb', mb. field. lra. Qed.
Lemma me_dt r : is_derive me r (me' r).
Proof using K0. unfold me, o2. eapply deq; [auto_derive; [repeat split; exists (- k*al r); apply al_dt|reflexivity]|]. replace (Derive (fun x => al x) r) with (- k*al r) by (symmetry; apply is_derive_unique, al_dt). unfold me', me, o2, mb. field. lra. Qed.
Lemma mc_dt r : is_derive mc r (mc' r).
Proof using K0. unfold mc, o1. eapply deq; [auto_derive; [repeat split; exists (- k*al r); apply al_dt|reflexivity]|]. replace (Derive (fun x => al x) r) with (- k*al r) by (symmetry; apply is_derive_unique, al_dt). unfold mc', me, o2. field. lra. Qed.
Definition mb2 (r : R) : R := - k*mb' r.
Definition me2 (r : R) : R := - k*me' r + 2*rho*sigma*xi*mb' r + xi*xi*(2*mb r*mb' r).
Lemma mb_dt2 r : is_derive mb' r (mb2 r).
Proof using K0. unfold mb'. eapply deq; [auto_derive; [exists (mb' r); apply mb_dt|reflexivity]|]. replace (Derive (fun x => mb x) r) with (mb' r) by (symmetry; apply is_derive_unique, mb_dt). unfold mb2. ring. Qed.
Lemma ma_dt2 r : is_derive ma' r (k*theta*mb' r).
Proof using K0. unfold ma'. eapply deq; [auto_derive; [exists (mb' r); apply mb_dt|reflexivity]|]. replace (Derive (fun x => mb x) r) with (mb' r) by (symmetry; apply is_derive_unique, mb_dt). ring. Qed.
Lemma mc_dt2 r : is_derive mc' r (k*theta*me' r).
Proof using K0. unfold mc'. eapply deq; [auto_derive; [exists (me' r); apply me_dt|reflexivity]|]. replace (Derive (fun x => me x) r) with (me' r) by (symmetry; apply is_derive_unique, me_dt). ring. Qed.
Lemma me_dt2 r : is_derive me' r (me2 r).
Proof using K0.
  unfold me'. eapply deq; [auto_derive; [repeat split; try (exists (me' r); apply me_dt); exists (mb' r); apply mb_dt|reflexivity]|]. replace (Derive (fun x => me x) r) with (me' r) by (symmetry; apply is_derive_unique, me_dt). replace (Derive (fun x => mb x) r) with (mb' r) by (symmetry; apply is_derive_unique, mb_dt). unfold me2. ring.
Qed.
Lemma cont_of (f f' : R -> R) r : is_derive f r (f' r) -> continuous f r.
Proof. intro H. apply (ex_derive_continuous (V := R_NormedModule)). eexists. exact H. Qed.
Lemma cont_lin (a : R) (f : R -> R) r : continuous f r -> continuous (fun r => a*f r) r.
Proof. intro H. apply (continuous_mult (K := R_AbsRing) (fun _ => a) f); [apply continuous_const|exact H]. Qed.
Lemma moment_bound T : 0 <= T -> exists M, 0 <= M /\ tbound ma ma' T M /\ tbound mb mb' T M /\ tbound mc mc' T M /\ tbound me me' T M.
Proof using K0.
  intro HT. assert (CB' : forall r, continuous mb' r) by (intro r; apply (cont_of mb' mb2), mb_dt2). assert (CE' : forall r, continuous me' r) by (intro r; apply (cont_of me' me2), me_dt2). assert (CB : forall r, continuous mb r) by (intro r; apply (cont_of mb mb'), mb_dt).
  destruct (taylor_on ma ma' (fun r => k*theta*mb' r) T HT) as (M1 & A1 & B1); [intros; apply ma_dt|intros; apply ma_dt2|intros; apply cont_lin, CB'|].
  destruct (taylor_on mb mb' mb2 T HT) as (M2 & A2 & B2); [intros; apply mb_dt|intros; apply mb_dt2|intros; apply (cont_lin (- k)), CB'|].
  destruct (taylor_on mc mc' (fun r => k*theta*me' r) T HT) as (M3 & A3 & B3); [intros; apply mc_dt|intros; apply mc_dt2|intros; apply cont_lin, CE'|].
  destruct (taylor_on me me' me2 T HT) as (M4 & A4 & B4); [intros; apply me_dt|intros; apply me_dt2| |].
  - intros z _. unfold me2. apply (continuous_plus (V := R_NormedModule) (fun r => - k*me' r + 2*rho*sigma*xi*mb' r) (fun r => xi*xi*(2*mb r*mb' r))).
    + apply (continuous_plus (V := R_NormedModule) (fun r => - k*me' r) (fun r => 2*rho*sigma*xi*mb' r)); apply cont_lin; auto.
    + apply cont_lin. apply (continuous_mult (K := R_AbsRing) (fun r => 2*mb r) mb'); auto. apply cont_lin; auto.
  - exists (M1 + M2 + M3 + M4). split; [lra|]. split; [apply (tbound_mono _ _ _ M1); auto; lra|]. split; [apply (tbound_mono _ _ _ M2); auto; lra|]. split; [apply (tbound_mono _ _ _ M3); auto; lra|apply (tbound_mono _ _ _ M4); auto; lra].
Qed.
Definition lmean (r x y : R) : R := x + ma r + mb r*y.
Definition lsq (r x y : R) : R := lmean r x y*lmean r x y + mc r + me r*y.
Lemma lmean_poly r x y : lmean r x y = ma r + 1*x + mb r*y + 0*(x*x) + 0*(x*y) + 0*(y*y).
Proof. unfold lmean. ring. Qed.
Lemma lsq_poly r x y : lsq r x y = (ma r*ma r + mc r) + (2*ma r)*x + (2*ma r*mb r + me r)*y + 1*(x*x) + (2*mb r)*(x*y) + (mb r*mb r)*(y*y).
Proof. unfold lsq, lmean. ring. Qed.
Lemma lmean_tame r : tame2 (lmean r).
Proof. apply (tame2_ext (fun x y => ma r + 1*x + mb r*y + 0*(x*x) + 0*(x*y) + 0*(y*y))); [intros; symmetry; apply lmean_poly|apply tame2_poly]. Qed.
Lemma lsq_tame r : tame2 (lsq r).
Proof. eapply tame2_ext; [intros; symmetry; apply lsq_poly|apply tame2_poly]. Qed.
Lemma HQ_lmean d r x y : 0 <= d -> HQ d (lmean r) x y - lmean (d + r) x y = aff_err ma ma' mb mb' d r y.
Proof using R1.
  intro D. rewrite (HQ_ext _ _ _ _ _ _ _ _ (fun x y => ma r + 1*x + mb r*y + 0*(x*x) + 0*(x*y) + 0*(y*y))) by (intros; apply lmean_poly). rewrite HQ_poly by auto. cbv zeta. unfold drift, Aa, aff_err, lmean, ma', mb', neg. field.
Qed.
Lemma HQ_lsq d r x y : 0 <= d -> HQ d (lsq r) x y - lsq (d + r) x y =
  aff_err ma ma' mb mb' d r y*(2*lmean (d + r) x y + aff_err ma ma' mb mb' d r y) + aff_err mc mc' me me' d r y.
Proof using R1.
  intro D. rewrite (HQ_ext _ _ _ _ _ _ _ _ (fun x y => (ma r*ma r + mc r) + (2*ma r)*x + (2*ma r*mb r + me r)*y + 1*(x*x) + (2*mb r)*(x*y) + (mb r*mb r)*(y*y))) by (intros; apply lsq_poly). rewrite HQ_poly by auto. cbv zeta.
  unfold drift, Aa, aff_err, lsq, lmean, ma', mb', mc', me', neg. field.
Qed.
Lemma lmean_step T : 0 <= T -> close_steps lmean T 1.
Proof using K0 T0 R1.
  intro HT. destruct (moment_bound T HT) as (M & M0 & BA & BB & _). assert (W := ww_pos xi). exists (M*(2 + 2*ww xi)). split; [nra|]. intros h (H & H4 & H1) _ d r x y D R0 DT. rewrite HQ_lmean by lra.
  eapply Rle_trans; [apply (aff_bound ma ma' mb mb' T M h); auto|]. assert (S1 := sq2_ge x y). assert (L := low_pos xi h y). assert (QD := quad x y). assert (PX := Rabs_pos x). assert (PY := Rabs_pos y).
  assert (NW := neg_weight h y 1 H ltac:(lra)). rewrite !Rmult_1_r in NW. unfold weight2.
  assert (Y1 : 1 + Rabs y <= 2*sq2 x y). { unfold sq2. assert (Y : Rabs y*Rabs y = y*y) by (rewrite <- Rabs_mult; apply Rabs_pos_eq, Rle_0_sqr). assert (Z := Rle_0_sqr (Rabs y - 1)). assert (Z' := Rle_0_sqr x). unfold Rsqr in *. nra. }
  assert (WH : 0 < ww xi*h) by nra.
  assert (E : h*(1 + Rabs y) + neg y <= h*(2 + 2*ww xi)*(sq2 x y + low xi h y)).
  { assert (Z1 : h*(1 + Rabs y) <= h*(2*sq2 x y)) by (apply Rmult_le_compat_l; lra). assert (Z2 : ww xi*h*(low xi h y + 1) <= ww xi*h*(low xi h y + sq2 x y)) by (apply Rmult_le_compat_l; lra). assert (Z3 : 0 <= h*low xi h y) by nra. assert (Z4 : 0 <= ww xi*h*(sq2 x y + low xi h y)) by nra. nra. }
  replace (M*(2 + 2*ww xi)*h*(d*(sq2 x y + low xi h y))) with (M*d*(h*(2 + 2*ww xi)*(sq2 x y + low xi h y))) by ring. apply Rmult_le_compat_l; [nra|exact E].
Qed.
Lemma lsq_step T : 0 <= T -> close_steps lsq T 1.
Proof using K0 T0 R1.
  intro HT. destruct (moment_bound T HT) as (M & M0 & BA & BB & BC & BE). assert (W := ww_pos xi). set (CC := 2 + 5*M). exists (M*(CC + 1)*(3 + 4*ww xi)). split; [unfold CC; nra|]. intros h (H & H4 & H1) _ d r x y D R0 DT. rewrite HQ_lsq by lra.
  assert (E1 := aff_bound ma ma' mb mb' T M h d r y M0 BA BB D R0 DT). assert (E2 := aff_bound mc mc' me me' T M h d r y M0 BC BE D R0 DT).
  set (e1 := aff_err ma ma' mb mb' d r y) in *. set (e2 := aff_err mc mc' me me' d r y) in *. assert (PX := Rabs_pos x). assert (PY := Rabs_pos y). set (A := 1 + Rabs x + Rabs y). assert (A1 : 1 <= A) by (unfold A; lra).
  destruct (neg_ge y) as [N0 N1]. set (B := h*(1 + Rabs y) + neg y) in *. assert (B0 : 0 <= B) by (unfold B; nra). assert (BU : B <= 2*A) by (unfold B, A; nra).
  assert (LM : Rabs (lmean (d + r) x y) <= (1 + M)*A).
  { destruct (BA (d + r) 0 ltac:(lra) ltac:(lra) ltac:(lra)) as (P1 & _). destruct (BB (d + r) 0 ltac:(lra) ltac:(lra) ltac:(lra)) as (P2 & _). unfold lmean. eapply Rle_trans; [apply Rabs_triang|]. eapply Rle_trans; [apply Rplus_le_compat_r, Rabs_triang|].
    rewrite Rabs_mult. assert (Rabs (mb (d + r))*Rabs y <= M*Rabs y) by (apply Rmult_le_compat_r; auto). unfold A. nra. }
  assert (SS : Rabs (2*lmean (d + r) x y + e1) <= CC*A).
  { eapply Rle_trans; [apply Rabs_triang|]. rewrite Rabs_mult, (Rabs_pos_eq 2) by lra. assert (M*d*B <= M*1*(2*A)) by (apply Rmult_le_compat; [nra|auto|apply Rmult_le_compat_l; lra|auto]). unfold CC. nra. }
  eapply Rle_trans; [apply Rabs_triang|]. rewrite Rabs_mult.
  assert (F1 : Rabs e1*Rabs (2*lmean (d + r) x y + e1) <= M*d*B*(CC*A)) by (apply Rmult_le_compat; auto; apply Rabs_pos).
  assert (CP : 0 < CC) by (unfold CC; lra). assert (MD : 0 <= M*d) by nra.
  assert (F2 : M*d*B <= M*d*B*A) by (assert (0 <= M*d*B) by nra; nra).
  assert (BA1 : B*A <= h*(3 + 4*ww xi)*weight2 xi h x y).
  { assert (QD := quad x y). fold A in QD. assert (NW := neg_weight h y A H ltac:(lra)). assert (L := low_pos xi h y). assert (S1 := sq2_ge x y). unfold weight2, B. assert (WH : 0 < ww xi*h) by nra.
    assert (Z1 : h*(1 + Rabs y)*A <= h*(3*sq2 x y)). { rewrite Rmult_assoc. apply Rmult_le_compat_l; [lra|]. apply Rle_trans with (A*A); [apply Rmult_le_compat_r; [lra|unfold A; lra]|auto]. }
    assert (Z2 : ww xi*h*(low xi h y + A*A) <= ww xi*h*(low xi h y + 3*sq2 x y)) by (apply Rmult_le_compat_l; lra). assert (Z3 : 0 <= h*low xi h y) by nra. assert (Z4 : 0 <= ww xi*h*low xi h y) by nra. assert (Z5 : 0 <= ww xi*h*sq2 x y) by nra. lra. }
  apply Rle_trans with (M*d*(CC + 1)*(B*A)); [nra|]. replace (M*(CC + 1)*(3 + 4*ww xi)*h*(d*weight2 xi h x y)) with (M*d*(CC + 1)*(h*(3 + 4*ww xi)*weight2 xi h x y)) by ring. apply Rmult_le_compat_l; [nra|exact BA1].
Qed.
Lemma moment_0 : ma 0 = 0 /\ mb 0 = 0 /\ mc 0 = 0 /\ me 0 = 0.
Proof using K0. unfold ma, mb, mc, me, o1, o2, al. rewrite Rmult_0_r, exp_0. repeat split; field; lra. Qed.
Lemma lmean_many x0 y0 T : 0 <= y0 -> 0 <= T -> exists C, 0 <= C /\ forall hs N h, small h -> (forall n, (n < N)%nat -> 0 <= hs n <= h) -> span hs N 0 <= T ->
  Rabs (itr2 hs N 0 (fun x _ => x) x0 y0 - lmean (span hs N 0) x0 y0) <= C*h.
Proof using K0 T0 R1.
  intros Y0 TT. destruct (many_steps2 lmean T 1 x0 y0 Y0 TT (fun r _ => lmean_tame r) (lmean_step T TT)) as (C & C0 & H). exists C. split; auto. intros hs N h SM HS SP. specialize (H hs N h SM (proj2 (proj2 SM)) HS SP).
  replace (fun x _ : R => x) with (lmean 0); [exact H|]. apply functional_extensionality. intro x. apply functional_extensionality. intro y. unfold lmean. destruct moment_0 as (-> & -> & _). ring.
Qed.
Lemma lsq_many x0 y0 T : 0 <= y0 -> 0 <= T -> exists C, 0 <= C /\ forall hs N h, small h -> (forall n, (n < N)%nat -> 0 <= hs n <= h) -> span hs N 0 <= T ->
  Rabs (itr2 hs N 0 (fun x _ => x*x) x0 y0 - lsq (span hs N 0) x0 y0) <= C*h.
Proof using K0 T0 R1.
  intros Y0 TT. destruct (many_steps2 lsq T 1 x0 y0 Y0 TT (fun r _ => lsq_tame r) (lsq_step T TT)) as (C & C0 & H). exists C. split; auto. intros hs N h SM HS SP. specialize (H hs N h SM (proj2 (proj2 SM)) HS SP).
  replace (fun x _ : R => x*x) with (lsq 0); [exact H|]. apply functional_extensionality. intro x. apply functional_extensionality. intro y. unfold lsq, lmean. destruct moment_0 as (-> & -> & -> & ->). ring.
Qed.
Lemma lmean_eq r x0 y0 : lmean r (ln x0) y0 = heston_log_mean x0 mu sigma y0 theta k xi rho r.
Proof using K0. unfold lmean, ma, mb, heston_log_mean, al. cbv zeta. field. lra. Qed.
Lemma lsq_eq r x0 y0 : lsq r (ln x0) y0 = heston_log_var x0 mu sigma y0 theta k xi rho r + heston_log_mean x0 mu sigma y0 theta k xi rho r*heston_log_mean x0 mu sigma y0 theta k xi rho r.
Proof using K0. rewrite <- lmean_eq. unfold lsq. rewrite Rplus_assoc, (Rplus_comm (lmean _ _ _*_)). f_equal. unfold mc, me, heston_log_var, o1, o2, al. cbv zeta. field. lra. Qed.
End Many2.
