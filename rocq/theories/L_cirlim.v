(** Lemmas on the convergence of the law of many steps of a square root diffusion, for bounded continuous functions. *)
From Coq Require Import List Arith Reals Lra Psatz Lia.
From Coquelicot Require Import Coquelicot.
From Verif Require Import M_analytical S_analytical L_complex L_gauss2 M_dist S_dist L_dist S_cir L_gamma L_cir P_moments P_cir L_gop L_cirop L_cirop2 L_cirop3 L_weier.
Import ListNotations.
Local Open Scope R_scope.

Lemma bern a z : 0 <= a <= 1 -> exp (a*z) <= a*exp z + (1 - a).
Proof.
  intro A. assert (E := exp_pos (a*z)). assert (X := exp_ineq1_le ((1 - a)*z)). assert (Y := exp_ineq1_le (- (a*z))).
  assert (EZ : exp z = exp (a*z)*exp ((1 - a)*z)) by (rewrite <- exp_plus; f_equal; ring). assert (E1 : 1 = exp (a*z)*exp (- (a*z))) by (rewrite <- exp_plus, <- exp_0 at 1; f_equal; ring).
  assert (X1 : exp (a*z)*(1 + (1 - a)*z) <= exp z) by (rewrite EZ; apply Rmult_le_compat_l; lra).
  assert (Y1 : exp (a*z)*(1 + - (a*z)) <= 1) by (rewrite E1 at 2; apply Rmult_le_compat_l; lra).
  assert (a*(exp (a*z)*(1 + (1 - a)*z)) <= a*exp z) by (apply Rmult_le_compat_l; lra). assert ((1 - a)*(exp (a*z)*(1 + - (a*z))) <= (1 - a)*1) by (apply Rmult_le_compat_l; lra).
  replace (exp (a*z)) with (a*(exp (a*z)*(1 + (1 - a)*z)) + (1 - a)*(exp (a*z)*(1 + - (a*z)))) by ring. lra.
Qed.

(** polynomials of exp(-x) *)
Fixpoint pe (l : list R) (j : nat) (x : R) : R := match l with [] => 0 | a :: l => a*exp (- (INR j*x)) + pe l (S j) x end.
Lemma pe_pol l : forall j x, pe l j x = exp (- (INR j*x))*pol l (exp (- x)).
Proof.
  induction l as [|a l IH]; intros j x; cbn [pe pol]; [ring|]. rewrite IH, S_INR. replace (- ((INR j + 1)*x)) with (- (INR j*x) + - x) by ring. rewrite exp_plus. ring.
Qed.
Fixpoint lsum (l : list R) : R := match l with [] => 0 | a :: l => Rabs a + lsum l end.
Lemma lsum_pos l : 0 <= lsum l. Proof. induction l as [|a l IH]; cbn; [lra|]. assert (X := Rabs_pos a). lra. Qed.
Lemma pe_below l n y : 0 <= y -> forall j, (j + List.length l <= n)%nat -> Rabs (pe l j 0 - pe l j (- y)) <= lsum l*(exp (INR n*y) - 1).
Proof.
  intro Y. induction l as [|a l IH]; intros j J; cbn [pe lsum].
  - rewrite Rminus_0_r, Rabs_R0. lra.
  - cbn [List.length] in J. assert (X := IH (S j) ltac:(lia)). set (e := exp (INR n*y) - 1) in *.
    replace (a*exp (- (INR j*0)) + pe l (S j) 0 - (a*exp (- (INR j*- y)) + pe l (S j) (- y))) with (a*(exp (- (INR j*0)) - exp (- (INR j*- y))) + (pe l (S j) 0 - pe l (S j) (- y))) by ring.
    eapply Rle_trans; [apply Rabs_triang|]. rewrite Rmult_plus_distr_r. apply Rplus_le_compat; [|exact X]. rewrite Rabs_mult. apply Rmult_le_compat_l; [apply Rabs_pos|].
    replace (- (INR j*0)) with 0 by ring. replace (- (INR j*- y)) with (INR j*y) by ring. rewrite exp_0, Rabs_minus_sym. assert (P := pos_INR j).
    assert (Q := le_INR j n ltac:(lia)). assert (1 <= exp (INR j*y)) by (rewrite <- exp_0; apply exp_le; nra). rewrite Rabs_pos_eq by lra. unfold e. assert (exp (INR j*y) <= exp (INR n*y)) by (apply exp_le; nra). lra.
Qed.
Lemma pe_tame l : forall j, tame (pe l j).
Proof.
  induction l as [|a l IH]; intro j; cbn [pe]; [apply tame_const|]. apply tame_plus; [|apply IH]. apply tame_scal. apply (tame_ext (fun x => exp (0 + (- INR j)*x))); [intro; f_equal; ring|apply tame_exp].
Qed.
Lemma pe_cont l j x : continuous (pe l j) x. Proof. apply pe_tame. Qed.

Section Lim.
Variables (x0 theta k xi : R) (gamma : R -> R).
Hypothesis X0 : 0 < x0.
Hypothesis T0 : 0 < theta.
Hypothesis K0 : 0 < k.
Hypothesis XI : xi <> 0.
Hypothesis GA : euler_gamma gamma.
Let p := pp x0 theta k xi gamma.
Lemma KT : 0 < k*theta. Proof using K0 T0. nra. Qed.
Lemma p_facts t : 0 < t -> cont_pos (p t) /\ (forall x, 0 < x -> 0 < p t x) /\ half_line (p t) 1 /\ half_line (fun x => x*p t x) (cir_mean x0 theta k xi t) /\
  forall s, 0 <= s -> half_line (fun x => exp (- (s*x))*p t x) (lap theta k xi s t x0).
Proof using GA K0 T0 X0 XI.
  intro T. assert (Z := KT). pose proof (q_gt theta k xi Z XI) as QG. pose proof (cc_pos theta k xi Z XI t T) as C. pose proof (uu_pos x0 theta k xi X0 Z XI t T) as U.
  split; [|split; [|split; [|split]]].
  - intros x X. apply (ex_derive_continuous (V := R_NormedModule)). eexists. apply pp_dx; auto.
  - intros x X. apply L_cir.dens_pos; auto.
  - apply dens_one; auto.
  - pose proof (dens_first gamma GA _ QG _ _ C U) as I1. rewrite (mean_form x0 theta k xi Z XI t T) in I1. exact I1.
  - intros s S. rewrite <- lap_mix by auto. apply dens_laplace; auto. lra.
Qed.
Fixpoint plap (l : list R) (j : nat) (t : R) : R := match l with [] => 0 | a :: l => a*lap theta k xi (INR j) t x0 + plap l (S j) t end.
Lemma pe_half l t : 0 < t -> forall j, half_line (fun x => pe l j x*p t x) (plap l j t).
Proof using GA K0 T0 X0 XI.
  intro T. destruct (p_facts t T) as (F1 & F2 & F3 & F4 & F5). induction l as [|a l IH]; intro j; cbn [pe plap].
  - eapply half_eq; [eapply half_ext; [apply (half_scal _ _ 0 F3)|]|]; [intros; cbv beta; ring|ring].
  - eapply half_ext; [apply half_plus; [apply (half_scal _ _ a (F5 (INR j) (pos_INR j)))|apply (IH (S j))]|]. intros x X. cbv beta. ring.
Qed.
Lemma pe_many T l : 0 <= T -> forall j, exists C h1, 0 <= C /\ 0 < h1 /\ forall hs N h, 0 < h <= h1 -> (forall n, (n < N)%nat -> 0 <= hs n <= h) -> span hs N 0 <= T ->
  Rabs (itr theta k xi hs N 0 (pe l j) x0 - plap l j (span hs N 0)) <= C*h.
Proof using K0 T0 X0 XI.
  intro TP. induction l as [|a l IH]; intro j.
  - exists 0, 1. split; [lra|]. split; [lra|]. intros hs N h H HS ST. cbn [pe plap].
    assert (E : itr theta k xi hs N 0 (fun _ => 0*0) x0 = 0*itr theta k xi hs N 0 (fun _ => 0) x0) by (apply (itr_scal theta k xi K0 T0 hs N (fun n Hn => proj1 (HS n Hn))); [lia|apply tame_const]).
    rewrite !Rmult_0_l in E. change (pe [] j) with (fun _ : R => 0). rewrite E, Rminus_0_r, Rabs_R0. lra.
  - destruct (IH (S j)) as (C2 & h2 & P2 & Q2 & H2). destruct (lap_many theta k xi K0 T0 x0 T (INR j) XI (pos_INR j) ltac:(lra) TP) as (C1 & P1 & H1).
    assert (HP := h0_pos k xi (INR j) K0 (pos_INR j)). exists (Rabs a*C1 + C2), (Rmin h2 (h0 k xi (INR j))). split; [assert (A := Rabs_pos a); nra|]. split; [apply Rmin_glb_lt; auto|].
    intros hs N h [HA HB] HS ST. assert (R1 := Rmin_l h2 (h0 k xi (INR j))). assert (R2 := Rmin_r h2 (h0 k xi (INR j))).
    specialize (H1 hs N h ltac:(lra) HS ST). specialize (H2 hs N h ltac:(lra) HS ST).
    assert (TE : tame (fun x => exp (- (INR j*x)))) by (apply (tame_ext (fun x => exp (0 + (- INR j)*x))); [intro; f_equal; ring|apply tame_exp]).
    change (pe (a :: l) j) with (fun x => (fun x => a*(fun x => exp (- (INR j*x))) x) x + pe l (S j) x).
    rewrite (itr_plus theta k xi K0 T0 hs N (fun n Hn => proj1 (HS n Hn))); [|lia|apply tame_scal, TE|apply pe_tame].
    rewrite (itr_scal theta k xi K0 T0 hs N (fun n Hn => proj1 (HS n Hn))); [|lia|exact TE]. cbn [plap].
    match goal with |- Rabs (a*?u + ?v - (a*?u' + ?v')) <= _ => replace (a*u + v - (a*u' + v')) with (a*(u - u') + (v - v')) by ring end.
    eapply Rle_trans; [apply Rabs_triang|]. rewrite Rabs_mult. assert (A := Rabs_pos a). assert (Rabs a*Rabs (itr theta k xi hs N 0 (fun x => exp (- (INR j*x))) x0 - lap theta k xi (INR j) (span hs N 0) x0) <= Rabs a*(C1*h)) by (apply Rmult_le_compat_l; auto). lra.
Qed.

(** *** bounded continuous functions *)
Variables (phi : R -> R) (B : R).
Hypothesis CP : forall x, continuous phi x.
Hypothesis BP : forall x, Rabs (phi x) <= B.
Lemma phi_half t : 0 < t -> exists v, half_line (fun x => phi x*p t x) v.
Proof using BP CP GA K0 T0 X0 XI.
  intro T. destruct (p_facts t T) as (F1 & F2 & F3 & F4 & F5). apply (half_exists _ (fun x => B*p t x) (B*1)).
  - apply half_scal. exact F3.
  - intros x X. apply (continuous_mult phi (p t)); [apply CP|apply F1; auto].
  - intros x X. apply (continuous_mult (fun _ => B) (p t)); [apply continuous_const|apply F1; auto].
  - intros x X. assert (P := F2 x X). rewrite Rabs_mult, (Rabs_pos_eq (p t x)) by lra. apply Rmult_le_compat_r; [lra|apply BP].
Qed.
Lemma B_pos : 0 <= B. Proof using BP. assert (X := Rabs_pos (phi 0)). assert (Y := BP 0). lra. Qed.
Lemma phi_tame : tame phi.
Proof using BP CP.
  split; [exact CP|]. exists B, 0. split; [exact B_pos|]. split; [lra|]. intro x. assert (A := ch_ge 0 x). assert (X := BP x). assert (Y := B_pos). nra.
Qed.
(** an approximation by polynomials of exp(-x): far from zero up to a multiple of x, and up to errors for negative values *)
Lemma phi_approx r eps : 0 < r -> 0 < eps -> exists l d, 0 < d /\
  (forall x, 0 <= x -> Rabs (phi x - pe l 0 x) <= eps + B*(x/r)) /\
  forall y, 0 <= y -> Rabs (phi (- y) - pe l 0 (- y)) <= 2*eps + 2*B*(y/d) + lsum l*(exp (INR (List.length l)*y) - 1).
Proof using BP CP.
  intros RP EP. assert (BB := B_pos).
  set (chi := fun x => Rmax 0 (Rmin 1 (2 - x/r))).
  assert (C0 : forall x, continuous chi x).
  { intro x. assert (CM : forall (f g : R -> R), continuous f x -> continuous g x -> continuous (fun x => Rmax (f x) (g x)) x).
    { intros f g F Gg. apply (continuous_ext (fun x => (f x + g x + Rabs (f x - g x))/2)).
      - intro u. unfold Rmax. destruct (Rle_dec (f u) (g u)); [rewrite Rabs_left1|rewrite Rabs_pos_eq]; lra.
      - apply (continuous_mult (fun x => f x + g x + Rabs (f x - g x)) (fun _ => /2)); [|apply continuous_const].
        apply (continuous_plus (V := R_NormedModule) (fun x => f x + g x)); [apply (continuous_plus (V := R_NormedModule) f g); auto|].
        apply (continuous_comp (fun x => f x - g x) Rabs); [apply (continuous_minus (V := R_NormedModule) f g); auto|apply continuous_Rabs]. }
    unfold chi. apply CM; [apply continuous_const|]. apply (continuous_ext (fun x => - Rmax (-1) (- (2 - x/r)))).
    - intro u. unfold Rmax, Rmin. destruct (Rle_dec (-1) (- (2 - u/r))), (Rle_dec 1 (2 - u/r)); lra.
    - apply (continuous_opp (V := R_NormedModule)). apply CM; [apply continuous_const|]. apply (ex_derive_continuous (V := R_NormedModule)). auto_derive. auto. }
  assert (C1 : forall x, 0 <= chi x <= 1) by (intro x; unfold chi; split; [apply Rmax_l|apply Rmax_lub; [lra|apply Rmin_l]]).
  assert (C2 : forall x, 0 <= x -> 1 - chi x <= x/r).
  { intros x X. assert (XR : 0 <= x/r) by (apply Rmult_le_pos; [auto|left; apply Rinv_0_lt_compat; auto]). destruct (Rle_lt_dec (x/r) 1) as [L|L].
    - assert (1 <= chi x) by (unfold chi; eapply Rle_trans; [|apply Rmax_r]; apply Rmin_glb; lra). lra.
    - assert (Y := C1 x). lra. }
  assert (C3 : forall x, 2*r <= x -> chi x = 0).
  { intros x X. unfold chi. apply Rmax_left. eapply Rle_trans; [apply Rmin_r|]. assert (2 <= x/r). { apply Rmult_le_reg_r with r; auto. unfold Rdiv. rewrite Rmult_assoc, Rinv_l; lra. } lra. }
  set (m := exp (- (2*r))). assert (MP : 0 < m) by apply exp_pos.
  set (f1 := fun x => phi x*chi x).
  assert (CF : forall x, continuous f1 x) by (intro x; apply (continuous_mult phi chi); auto).
  destruct (weierstrass (fun u => f1 (- ln (Rmax u m))) eps) as (l & HL); [|auto|].
  { intros u _. apply (continuous_comp (fun u => - ln (Rmax u m)) f1); [|apply CF]. apply (continuous_opp (V := R_NormedModule) (fun u => ln (Rmax u m))).
    apply (continuous_comp (fun u => Rmax u m) ln).
    - apply (continuous_ext (fun u => (u + m + Rabs (u - m))/2)).
      + intro v. unfold Rmax. destruct (Rle_dec v m); [rewrite Rabs_left1|rewrite Rabs_pos_eq]; lra.
      + apply (continuous_mult (fun u => u + m + Rabs (u - m)) (fun _ => /2)); [|apply continuous_const].
        apply (continuous_plus (V := R_NormedModule) (fun u => u + m)); [apply (ex_derive_continuous (V := R_NormedModule)); auto_derive; auto|].
        apply (continuous_comp (fun u => u - m) Rabs); [apply (ex_derive_continuous (V := R_NormedModule)); auto_derive; auto|apply continuous_Rabs].
    - apply (ex_derive_continuous (V := R_NormedModule)). auto_derive. assert (X := Rmax_r u m). lra. }
  assert (P0 : forall x, 0 <= x -> Rabs (f1 x - pe l 0 x) <= eps).
  { intros x X. assert (E1 : exp (- x) <= 1) by (rewrite <- exp_0; apply exp_le; lra). assert (E2 := exp_pos (- x)). assert (H := HL (exp (- x)) ltac:(lra)). cbv beta in H.
    rewrite pe_pol. cbn [INR]. rewrite Rmult_0_l, Ropp_0, exp_0, Rmult_1_l.
    replace (f1 x) with (f1 (- ln (Rmax (exp (- x)) m))); [exact H|]. destruct (Rle_lt_dec x (2*r)) as [L|L].
    - rewrite Rmax_left by (unfold m; apply exp_le; lra). rewrite ln_exp, Ropp_involutive. reflexivity.
    - rewrite Rmax_right by (unfold m; apply exp_le; lra). unfold m. rewrite ln_exp, Ropp_involutive. unfold f1. rewrite !C3 by lra. ring. }
  assert (P1 : forall x, 0 <= x -> Rabs (phi x - pe l 0 x) <= eps + B*(x/r)).
  { intros x X. replace (phi x - pe l 0 x) with ((f1 x - pe l 0 x) + phi x*(1 - chi x)) by (unfold f1; ring). eapply Rle_trans; [apply Rabs_triang|]. apply Rplus_le_compat; [apply P0; auto|].
    rewrite Rabs_mult. assert (Y := C1 x). rewrite (Rabs_pos_eq (1 - chi x)) by lra. apply Rmult_le_compat; [apply Rabs_pos|lra|apply BP|apply C2; auto]. }
  destruct (CP 0 (ball (phi 0) (mkposreal eps EP))) as [d Hd]; [exists (mkposreal eps EP); auto|]. assert (DP := cond_pos d). set (dd := RIneq.pos d) in *.
  exists l, dd. split; [exact DP|]. split; [exact P1|]. intros y Y.
  assert (NR : Rabs (phi (- y) - phi 0) <= eps + 2*B*(y/dd)).
  { assert (YD : 0 <= y/dd) by (apply Rmult_le_pos; [auto|left; apply Rinv_0_lt_compat; auto]). destruct (Rlt_le_dec y dd) as [L|L].
    - assert (H := Hd (- y)). unfold ball in H. cbn in H. unfold AbsRing_ball, abs, minus, plus, opp in H. cbn in H. assert (Z : Rabs (- y + - 0) < d) by (replace (- y + - 0) with (- y) by ring; rewrite Rabs_Ropp, Rabs_pos_eq; auto).
      specialize (H Z). assert (0 <= B*(y/dd)) by (apply Rmult_le_pos; auto). change (phi (- y) + - phi 0) with (phi (- y) - phi 0) in H. lra.
    - assert (1 <= y/dd). { apply Rmult_le_reg_r with dd; auto. unfold Rdiv. rewrite Rmult_assoc, Rinv_l; lra. } assert (B*1 <= B*(y/dd)) by (apply Rmult_le_compat_l; auto).
      eapply Rle_trans; [apply Rabs_triang|]. rewrite Rabs_Ropp. assert (A1 := BP (- y)). assert (A2 := BP 0). lra. }
  assert (Q0 := P1 0 ltac:(lra)). assert (Q1 := pe_below l (List.length l) y Y 0 ltac:(lia)).
  replace (phi (- y) - pe l 0 (- y)) with ((phi (- y) - phi 0) + (phi 0 - pe l 0 0) + (pe l 0 0 - pe l 0 (- y))) by ring.
  eapply Rle_trans; [apply Rabs_triang|]. eapply Rle_trans; [apply Rplus_le_compat_r, Rabs_triang|]. replace (0/r) with 0 in Q0 by (unfold Rdiv; ring). lra.
Qed.
Lemma phi_many T eps : 0 <= T -> 0 < eps -> exists h1, 0 < h1 /\ forall hs N h v, 0 < h <= h1 -> (forall n, (n < N)%nat -> 0 <= hs n <= h) -> 0 < span hs N 0 <= T ->
  half_line (fun x => phi x*p (span hs N 0) x) v -> Rabs (itr theta k xi hs N 0 phi x0 - v) <= eps.
Proof using BP CP GA K0 T0 X0 XI.
  intros TP EP. assert (BB := B_pos). set (M := x0 + theta).
  set (e := eps/12). set (r := 12*(B + 1)*(M + 1)/eps). assert (MP : 0 < M) by (unfold M; lra).
  assert (RP : 0 < r) by (unfold r; apply Rdiv_lt_0_compat; [apply Rmult_lt_0_compat; lra|auto]).
  assert (BR : B/r*(M + 1) <= e).
  { unfold r, e. replace (B/(12*(B + 1)*(M + 1)/eps)*(M + 1)) with (eps/12*(B/(B + 1))) by (field; lra).
    assert (B/(B + 1) <= 1). { apply Rmult_le_reg_r with (B + 1); [lra|]. unfold Rdiv. rewrite Rmult_assoc, Rinv_l; lra. }
    assert (eps/12*(B/(B + 1)) <= eps/12*1) by (apply Rmult_le_compat_l; lra). lra. }
  destruct (phi_approx r e RP ltac:(unfold e; lra)) as (l & d & DP & A1 & A2).
  destruct (pe_many T l TP 0) as (C1 & g1 & C1P & G1 & H1).
  destruct (mean_many theta k xi K0 T0 x0 T ltac:(lra) TP) as (C2 & C2P & H2).
  destruct (neg_many theta k xi K0 T0 x0 ltac:(lra)) as (C3 & C3P & H3).
  set (n := List.length l). assert (W := ww_pos xi). set (w := L_cirop.ww xi) in *. assert (CS := cst_pos theta k xi K0 T0). set (cs := cst theta k xi) in *.
  set (K := lsum l). assert (KP : 0 <= K) by apply lsum_pos.
  set (br := B/r). assert (BRP : 0 <= br) by (unfold br; apply Rmult_le_pos; [auto|left; apply Rinv_0_lt_compat; auto]).
  set (bd := 2*B/d). assert (BDP : 0 <= bd) by (unfold bd; apply Rmult_le_pos; [lra|left; apply Rinv_0_lt_compat; auto]).
  (* all errors that are proportional to the step *)
  set (A := C1 + br*(C2 + 2*C3) + bd*C3 + K*(INR n*w)*(1 + 3*cs)). assert (NP := pos_INR n).
  assert (AP : 0 <= A).
  { unfold A. assert (0 <= br*(C2 + 2*C3)) by (apply Rmult_le_pos; lra). assert (0 <= bd*C3) by (apply Rmult_le_pos; lra). assert (0 <= INR n*w) by (apply Rmult_le_pos; lra).
    assert (0 <= K*(INR n*w)*(1 + 3*cs)) by (apply Rmult_le_pos; [apply Rmult_le_pos; lra|lra]). lra. }
  set (h1 := Rmin (Rmin g1 (/(4*k))) (Rmin (/(INR n*w + 1)) (e/(A + 1)))).
  assert (I1 : 0 < /(4*k)) by (apply Rinv_0_lt_compat; lra). assert (I2 : 0 < /(INR n*w + 1)) by (apply Rinv_0_lt_compat; assert (0 <= INR n*w) by (apply Rmult_le_pos; lra); lra).
  assert (I3 : 0 < e/(A + 1)) by (apply Rdiv_lt_0_compat; unfold e; lra).
  exists h1. split; [unfold h1; repeat apply Rmin_glb_lt; auto|]. intros hs N h v [HP HH] HS [SP ST] HV.
  assert (L1 : h <= g1) by (eapply Rle_trans; [exact HH|]; unfold h1; eapply Rle_trans; [apply Rmin_l|apply Rmin_l]).
  assert (L2 : h <= /(4*k)) by (eapply Rle_trans; [exact HH|]; unfold h1; eapply Rle_trans; [apply Rmin_l|apply Rmin_r]).
  assert (L3 : h <= /(INR n*w + 1)) by (eapply Rle_trans; [exact HH|]; unfold h1; eapply Rle_trans; [apply Rmin_r|apply Rmin_l]).
  assert (L4 : h <= e/(A + 1)) by (eapply Rle_trans; [exact HH|]; unfold h1; eapply Rle_trans; [apply Rmin_r|apply Rmin_r]).
  assert (H4 : 4*(k*h) <= 1). { apply Rmult_le_compat_l with (r := 4*k) in L2; [|lra]. rewrite Rinv_r in L2; lra. }
  assert (NW : INR n*w*h <= 1). { assert (0 <= INR n*w) by (apply Rmult_le_pos; lra). apply Rmult_le_compat_l with (r := INR n*w + 1) in L3; [|lra]. rewrite Rinv_r in L3; lra. }
  assert (AH : A*h <= e). { apply Rmult_le_compat_l with (r := A + 1) in L4; [|lra]. replace ((A + 1)*(e/(A + 1))) with e in L4 by (field; lra). lra. }
  specialize (H1 hs N h ltac:(lra) HS ST). specialize (H2 hs N h HP H4 HS ST). specialize (H3 hs N h HP H4 HS).
  set (t := span hs N 0) in *. set (E := fun f => itr theta k xi hs N 0 f x0). repeat match goal with |- context [itr theta k xi hs N 0 ?f x0] => change (itr theta k xi hs N 0 f x0) with (E f) end. repeat match type of H1 with context [itr theta k xi hs N 0 ?f x0] => change (itr theta k xi hs N 0 f x0) with (E f) in H1 end.
  repeat match type of H2 with context [itr theta k xi hs N 0 ?f x0] => change (itr theta k xi hs N 0 f x0) with (E f) in H2 end. repeat match type of H3 with context [itr theta k xi hs N 0 ?f x0] => change (itr theta k xi hs N 0 f x0) with (E f) in H3 end.
  assert (HS0 : forall n, (n < N)%nat -> 0 <= hs n) by (intros j J; apply HS; auto).
  assert (EL : forall f g, tame f -> tame g -> (forall y, f y <= g y) -> E f <= E g) by (intros f g F Gg L; apply (itr_le theta k xi K0 T0 hs N HS0); auto).
  assert (EPl : forall f g, tame f -> tame g -> E (fun y => f y + g y) = E f + E g) by (intros f g F Gg; apply (itr_plus theta k xi K0 T0 hs N HS0); auto).
  assert (ES : forall a f, tame f -> E (fun y => a*f y) = a*E f) by (intros a f F; apply (itr_scal theta k xi K0 T0 hs N HS0); auto).
  assert (E1 : E (fun _ => 1) = 1).
  { unfold E. clear. generalize 0%nat. induction N as [|N IH]; intro j; cbn [itr]; [reflexivity|]. transitivity (Q theta k xi (hs j) (fun _ => 1) x0); [|exact (Q_const theta k xi _ 1 x0)].
    apply Q_ext. intro y. clear IH. revert j y. induction N as [|N IH]; intros j y; cbn [itr]; [reflexivity|]. rewrite (Q_ext theta k xi _ _ (fun _ => 1)); [exact (Q_const theta k xi _ 1 y)|]. intro z. apply IH. }
  set (neg := fun x => Rmax (- x) 0). change (fun x => Rmax (- x) 0) with neg in H3.
  assert (TN : tame neg) by (apply (tame_ext (fun z => (fun x => Rmax x 0) (0 + (-1)*z))); [intro; unfold neg; f_equal; ring|apply (tame_aff (fun x => Rmax x 0)), tame_max]).
  assert (TL := low_tame xi h). set (lo := low xi h) in *.
  (* the error for all values *)
  set (D := fun x => 2*e*1 + br*x + (2*br + bd)*neg x + K*(INR n*w*h)*lo x).
  assert (LW : E lo <= 1 + 3*cs).
  { assert (X := itr_low theta k xi K0 T0 hs N HS0 h HP (fun j Hj => proj2 (HS j Hj)) H4 N 0%nat x0 ltac:(lia)). fold (E lo) in X. fold cs in X.
    assert (Y : lo x0 <= 1). { unfold lo, low. rewrite <- exp_0. apply exp_le. assert (LP := lam_pos xi h HP). nra. } unfold E, lo in *. lra. }
  assert (TD1 : tame (fun x => 2*e*1)) by apply tame_const. assert (TD2 : tame (fun x => br*x)) by (apply (tame_scal br (fun x => x)), tame_id).
  assert (TD3 : tame (fun x => (2*br + bd)*neg x)) by (apply tame_scal; auto). assert (TD4 : tame (fun x => K*(INR n*w*h)*lo x)) by (apply tame_scal; auto).
  assert (TD12 : tame (fun x => 2*e*1 + br*x)) by (apply (tame_plus (fun _ => 2*e*1) (fun x => br*x)); auto).
  assert (TD123 : tame (fun x => 2*e*1 + br*x + (2*br + bd)*neg x)) by (apply (tame_plus (fun x => 2*e*1 + br*x) (fun x => (2*br + bd)*neg x)); auto).
  assert (TD : tame D) by (apply (tame_plus (fun x => 2*e*1 + br*x + (2*br + bd)*neg x) (fun x => K*(INR n*w*h)*lo x)); auto).
  assert (ED : E D <= 2*e + br*(M + C2*h) + (2*br + bd)*(C3*h) + K*(INR n*w*h)*(1 + 3*cs)).
  { unfold D. rewrite (EPl (fun x => 2*e*1 + br*x + (2*br + bd)*neg x) (fun x => K*(INR n*w*h)*lo x)), (EPl (fun x => 2*e*1 + br*x) (fun x => (2*br + bd)*neg x)), (EPl (fun _ => 2*e*1) (fun x => br*x)) by auto.
    rewrite (ES (2*e) (fun _ => 1)) by apply tame_const. rewrite E1. rewrite (ES br (fun x => x)) by apply tame_id. rewrite (ES (2*br + bd) neg), (ES (K*(INR n*w*h)) lo) by auto.
    assert (MU : vmean theta k t x0 <= M).
    { unfold vmean, M. assert (0 < exp (- (k*t))) by apply exp_pos. assert (exp (- (k*t)) <= 1) by (rewrite <- exp_0; apply exp_le; nra). nra. }
    assert (X : E (fun x => x) <= M + C2*h) by (apply Rabs_le_between in H2; lra).
    assert (br*E (fun x => x) <= br*(M + C2*h)) by (apply Rmult_le_compat_l; auto). assert ((2*br + bd)*E neg <= (2*br + bd)*(C3*h)) by (apply Rmult_le_compat_l; [lra|auto]).
    assert (0 <= K*(INR n*w*h)) by (apply Rmult_le_pos; [auto|apply Rmult_le_pos; [apply Rmult_le_pos; lra|lra]]).
    assert (K*(INR n*w*h)*E lo <= K*(INR n*w*h)*(1 + 3*cs)) by (apply Rmult_le_compat_l; auto). lra. }
  assert (AD : forall x, Rabs (phi x - pe l 0 x) <= D x).
  { intro x. unfold D. assert (LP : 0 < lo x) by apply exp_pos. assert (KN : 0 <= K*(INR n*w*h)) by (apply Rmult_le_pos; [auto|apply Rmult_le_pos; [apply Rmult_le_pos; lra|lra]]).
    assert (KL : 0 <= K*(INR n*w*h)*lo x) by (apply Rmult_le_pos; lra). destruct (Rle_lt_dec 0 x) as [X|X].
    - assert (Y := A1 x X). unfold neg. rewrite Rmax_right by lra. replace (B*(x/r)) with (br*x) in Y by (unfold br, Rdiv; ring). assert (0 <= br*x) by (apply Rmult_le_pos; auto). unfold e in *. lra.
    - assert (Y := A2 (- x) ltac:(lra)). rewrite Ropp_involutive in Y. unfold neg. rewrite Rmax_left by lra. fold K n in Y. replace (2*B*(- x/d)) with (bd*(- x)) in Y by (unfold bd, Rdiv; ring).
      assert (NN : 0 <= INR n*w*h <= 1) by (split; [apply Rmult_le_pos; [apply Rmult_le_pos; lra|lra]|auto]).
      assert (Z := bern (INR n*w*h) (- (lam xi h*x)) NN). fold (low xi h x) in Z. fold lo in Z. assert (LE := lam_eq xi h HP). fold w in LE.
      replace (INR n*w*h*- (lam xi h*x)) with (INR n*- x*(lam xi h*(w*h))) in Z by ring. rewrite LE, Rmult_1_r in Z.
      assert (EB : exp (INR n*- x) - 1 <= INR n*w*h*lo x) by lra. assert (K*(exp (INR n*- x) - 1) <= K*(INR n*w*h*lo x)) by (apply Rmult_le_compat_l; auto).
      assert (0 <= br*(- x)) by (apply Rmult_le_pos; lra). lra. }
  assert (TPe := pe_tame l 0). assert (TPh := phi_tame).
  assert (EC : Rabs (E phi - E (pe l 0)) <= E D).
  { apply Rabs_le. split.
    - assert (X := EL (fun y => pe l 0 y) (fun y => phi y + D y) TPe (tame_plus _ _ TPh TD)). rewrite (EPl phi D TPh TD) in X. assert (E (fun y => pe l 0 y) <= E phi + E D) by (apply X; intro y; assert (Z := AD y); apply Rabs_le_between in Z; lra). change (E (fun y => pe l 0 y)) with (E (pe l 0)) in *. lra.
    - assert (X := EL phi (fun y => pe l 0 y + D y) TPh (tame_plus _ _ TPe TD)). rewrite (EPl (pe l 0) D TPe TD) in X. assert (E phi <= E (pe l 0) + E D) by (apply X; intro y; assert (Z := AD y); apply Rabs_le_between in Z; lra). lra. }
  destruct (p_facts t SP) as (F1 & F2 & F3 & F4 & F5).
  assert (VC : Rabs (v + -1*plap l 0 t) <= e*1 + br*cir_mean x0 theta k xi t).
  { apply (half_le (fun x => phi x*p t x + -1*(pe l 0 x*p t x)) (fun x => e*p t x + br*(x*p t x))).
    - apply half_plus; [exact HV|apply half_scal, pe_half; auto].
    - apply half_plus; apply half_scal; auto.
    - intros x X. apply (continuous_plus (V := R_NormedModule) (fun x => phi x*p t x)); [apply (continuous_mult phi (p t)); [apply CP|apply F1; auto]|].
      apply (continuous_mult (fun _ => -1) (fun x => pe l 0 x*p t x)); [apply continuous_const|]. apply (continuous_mult (pe l 0) (p t)); [apply pe_cont|apply F1; auto].
    - intros x X. apply (continuous_plus (V := R_NormedModule) (fun x => e*p t x)); [apply (continuous_mult (fun _ => e) (p t)); [apply continuous_const|apply F1; auto]|].
      apply (continuous_mult (fun _ => br) (fun x => x*p t x)); [apply continuous_const|]. apply (continuous_mult (fun x => x) (p t)); [apply continuous_id|apply F1; auto].
    - intros x X. assert (Z := A1 x ltac:(lra)). assert (P := F2 x X). replace (phi x*p t x + -1*(pe l 0 x*p t x)) with ((phi x - pe l 0 x)*p t x) by ring. rewrite Rabs_mult, (Rabs_pos_eq (p t x)) by lra.
      replace (e*p t x + br*(x*p t x)) with ((e + B*(x/r))*p t x) by (unfold br, Rdiv; ring). apply Rmult_le_compat_r; lra. }
  assert (MU : cir_mean x0 theta k xi t <= M).
  { unfold cir_mean, M. cbv zeta. assert (0 < exp (- k*t)) by apply exp_pos. assert (exp (- k*t) <= 1) by (rewrite <- exp_0; apply exp_le; nra). nra. }
  assert (BM : br*cir_mean x0 theta k xi t <= br*M) by (apply Rmult_le_compat_l; auto).
  replace (E phi - v) with ((E phi - E (pe l 0)) + (E (pe l 0) - plap l 0 t) - (v + -1*plap l 0 t)) by ring.
  eapply Rle_trans; [apply Rabs_triang|]. rewrite Rabs_Ropp. eapply Rle_trans; [apply Rplus_le_compat_r, Rabs_triang|].
  assert (AE : A*h = C1*h + br*(C2*h) + (2*br + bd)*(C3*h) + K*(INR n*w*h)*(1 + 3*cs)) by (unfold A; ring).
  assert (BB2 : br*M <= e) by (fold br in BR; lra). fold br in BR. unfold e in *. lra.
Qed.
End Lim.
