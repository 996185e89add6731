(** The characteristic function of the Heston process: the logarithm stays out of its cut, Riccati equation, sign. *)
From Coq Require Import Reals Lra Lia Psatz.
From Coquelicot Require Import Coquelicot.
From Verif Require Import M_analytical S_chf L_complex.
Local Open Scope R_scope.

(** *** Principal square root *)
Lemma csqrt_re z : 0 <= fst (csqrt z).
Proof. unfold csqrt. simpl. apply sqrt_pos. Qed.
Lemma csqrt_sq z : fst (csqrt z) ^2 - snd (csqrt z) ^2 = fst z /\ 2 * fst (csqrt z) * snd (csqrt z) = snd z.
Proof.
  pose proof (Cmod_sq z) as Q. pose proof (Cmod_ge_0 z) as P.
  assert (A1 : 0 <= (Cmod z + fst z)/2) by (pose proof (pow2_ge_0 (snd z)); nra).
  assert (A2 : 0 <= (Cmod z - fst z)/2) by (pose proof (pow2_ge_0 (snd z)); nra).
  assert (E : sqrt ((Cmod z + fst z)/2) * sqrt ((Cmod z - fst z)/2) = Rabs (snd z)/2).
  { rewrite <- sqrt_mult_alt by auto. replace ((Cmod z + fst z)/2 * ((Cmod z - fst z)/2)) with (Rsqr (snd z/2)) by (unfold Rsqr; nra).
    rewrite sqrt_Rsqr_abs. unfold Rdiv. rewrite Rabs_mult, (Rabs_pos_eq (/2)) by lra. reflexivity. }
  pose proof (sqrt_sqrt _ A1) as S1. pose proof (sqrt_sqrt _ A2) as S2.
  unfold csqrt. cbn [fst snd]. destruct (Rlt_dec (snd z) 0) as [L|L]; [rewrite Rabs_left in E by auto|rewrite Rabs_pos_eq in E by lra]; split; nra.
Qed.

(** the key step: the ratio of the logarithm is never a negative number *)
Lemma no_cut (k b p q a1 a2 r : R) (w1 w2 : R) :
  0 < k -> 0 <= r -> Rabs q < p -> 0 < a1^2 + a2^2 < 1 ->
  (* beta = w d *)
  w1*p - w2*q = k -> w1*q + w2*p = - b ->
  (* w (1 - alpha) + 1 + alpha = - 2 r *)
  w1*(1 - a1) + w2*a2 + 1 + a1 = - (2*r) -> w2*(1 - a1) - w1*a2 + a2 = 0 ->
  (* the imaginary part of alpha has the sign of q only after half a turn *)
  (0 < q*a2 -> a1^2 + a2^2 < 1/10) -> False.
Proof.
  intros K Rp Q [A0 A1] E1 E2 F1 F2 H. apply Rabs_def2 in Q.
  assert (N : 0 < (1 - a1)^2 + a2^2) by nra.
  assert (G1 : w1 * ((1 - a1)^2 + a2^2) = - (1 - (a1^2 + a2^2)) - 2*r*(1 - a1)).
  { replace (w1 * _) with ((1 - a1)*(w1*(1 - a1) + w2*a2 + 1 + a1) - a2*(w2*(1 - a1) - w1*a2 + a2) - (1 - a1)*(1 + a1) + a2*a2) by ring. rewrite F1, F2. ring. }
  assert (G2 : w2 * ((1 - a1)^2 + a2^2) = - (2 + 2*r)*a2).
  { replace (w2 * _) with (a2*(w1*(1 - a1) + w2*a2 + 1 + a1) + (1 - a1)*(w2*(1 - a1) - w1*a2 + a2) - 2*a2) by ring. rewrite F1, F2. ring. }
  assert (a1 < 1) by nra.
  assert (W1 : w1 < 0) by nra.
  assert (WQ : w2*q < 0) by nra.
  assert (QA : 0 < q*a2).
  { assert (w2*q * ((1 - a1)^2 + a2^2) = - (2 + 2*r)*(q*a2)) by (transitivity (q * (w2 * ((1 - a1)^2 + a2^2))); [ring|rewrite G2; ring]). nra. }
  specialize (H QA).
  assert (W2 : w1^2 <= w2^2).
  { assert (- w2*q > - w1*p) by nra. assert (0 < -w1*p) by nra.
    assert ((w1*p)^2 <= (w2*q)^2) by nra. assert (q^2 <= p^2) by nra.
    assert (w2^2*q^2 <= w2^2*p^2) by nra. assert (w1^2*p^2 <= w2^2*p^2) by nra. assert (0 < p^2) by nra. nra. }
  (* alpha (w - 1) = w + 1 + 2 r *)
  assert (M : (a1^2 + a2^2) * ((w1 - 1)^2 + w2^2) = (w1 + 1 + 2*r)^2 + w2^2).
  { assert (J1 : a1*(w1 - 1) - a2*w2 = w1 + 1 + 2*r) by lra. assert (J2 : a1*w2 + a2*(w1 - 1) = w2) by lra.
    transitivity ((a1*(w1 - 1) - a2*w2)^2 + (a1*w2 + a2*(w1 - 1))^2); [ring|rewrite J1, J2; ring]. }
  assert ((w1 + 1 + 2*r)^2 + w2^2 >= 1/10 * ((w1 - 1)^2 + w2^2)).
  { destruct (Rle_dec 1 (- w1)); nra. }
  assert (0 < (w1 - 1)^2 + w2^2) by nra. nra.
Qed.

Section Heston.
Variables sigma k xi b : R.
(* k - i b, u^2 + i u, square root of the discriminant *)
Variables be v d : C.
Hypothesis h_k : 0 < k.
Hypothesis h_xi : xi <> 0.
Hypothesis h_be : be = (k, - b).
Hypothesis d_sq : (d * d = be * be + ((sigma*xi)^2)%R * v)%C.
Hypothesis d_re : 0 < fst d /\ Rabs (snd d) < fst d.
Let ap : C := (be - d)%C.
Let am : C := (be + d)%C.
Let g : C := (ap / am)%C.
Definition h_al (t : R) : C := cexp (- d * t)%C.
Definition h_W (t : R) : C := ((1 - g * h_al t)/(1 - g))%C.
Definition h_D (t : R) : C := ((/ (xi*xi))%R * (ap * (1 - h_al t)/(1 - g * h_al t)))%C.
Definition h_L (t : R) : C := ((/ (xi*xi))%R * (ap * t - 2 * clog (h_W t)))%C.

Lemma d_ne : d <> 0%C.
Proof. intro E. pose proof (proj1 d_re) as P. rewrite E in P. simpl in P. lra. Qed.
Lemma am_ne : am <> 0%C.
Proof. intro E. pose proof (proj1 d_re) as P. apply (f_equal fst) in E. unfold am in E. rewrite h_be in E. simpl in E. lra. Qed.
Lemma C2 : RtoC 2 = (1 + 1)%C.
Proof. apply C_ext; simpl; lra. Qed.
Lemma two_ne : (2 : C) <> 0%C.
Proof. intro E. apply (f_equal fst) in E. simpl in E. lra. Qed.
Lemma g1_eq : (1 - g = 2 * d / am)%C.
Proof. pose proof am_ne. unfold g, ap, am in *. rewrite C2. field. auto. Qed.
Lemma g1_ne : (1 - g)%C <> 0%C.
Proof.
  rewrite g1_eq. pose proof am_ne. pose proof d_ne. unfold Cdiv. repeat apply Cmult_neq_0; auto using two_ne.
  intro E. apply (f_equal (fun z => z * am)%C) in E. rewrite Cinv_l, Cmult_0_l in E by auto. apply (f_equal fst) in E. simpl in E. lra.
Qed.
Lemma al_parts t : fst (h_al t) = exp (- (fst d * t)) * cos (snd d * t) /\ snd (h_al t) = - (exp (- (fst d * t)) * sin (snd d * t)).
Proof.
  unfold h_al, cexp. simpl. replace (- fst d * t - - snd d * 0) with (- (fst d * t)) by ring.
  replace (- fst d * 0 + - snd d * t) with (- (snd d * t)) by ring. rewrite cos_neg, sin_neg. split; ring.
Qed.
Lemma al_norm t : fst (h_al t) ^2 + snd (h_al t)^2 = exp (- (2 * (fst d * t))).
Proof.
  destruct (al_parts t) as [-> ->]. replace (- (2 * (fst d * t))) with (- (fst d * t) + - (fst d * t)) by ring. rewrite exp_plus.
  pose proof (sin2_cos2 (snd d * t)) as E. unfold Rsqr in E.
  transitivity (exp (- (fst d * t)) * exp (- (fst d * t)) * (sin (snd d * t) * sin (snd d * t) + cos (snd d * t) * cos (snd d * t))); [ring|rewrite E; ring].
Qed.
Lemma al_0 : h_al 0 = 1%C.
Proof. destruct (al_parts 0) as [E1 E2]. rewrite !Rmult_0_r, Ropp_0, exp_0, cos_0 in E1. rewrite !Rmult_0_r, Ropp_0, exp_0, sin_0 in E2. apply C_ext; [rewrite E1|rewrite E2]; simpl; lra. Qed.
Lemma W_0 : h_W 0 = 1%C.
Proof. unfold h_W. rewrite al_0. pose proof g1_ne. replace (1 - g * 1)%C with (1 - g)%C by ring. field. auto. Qed.
Lemma PI_3 : 3 < PI.
Proof. pose proof PI2_3_2. lra. Qed.
Lemma slit_dec (z : C) : slit z \/ (fst z <= 0 /\ snd z = 0).
Proof. unfold slit. destruct (Rlt_dec 0 (fst z)); auto. destruct (Req_dec (snd z) 0); auto. right. split; lra. Qed.
Lemma W_slit t : 0 <= t -> slit (h_W t).
Proof.
  intros [T|<-]; [|rewrite W_0; left; simpl; lra].
  destruct (slit_dec (h_W t)) as [|[Z1 Z2]]; auto. exfalso.
  pose proof am_ne as AM. pose proof d_ne as DN. pose proof g1_ne as GN. destruct d_re as [P Q].
  set (w := (be/d)%C). set (r := - fst (h_W t)). assert (WR : h_W t = (- RtoC r)%C) by (apply C_ext; unfold r; [cbn [Copp RtoC fst snd]; ring|rewrite Z2; simpl; ring]).
  assert (EB : (w * d = be)%C) by (unfold w; field; auto).
  assert (EW : (w * (1 - h_al t) + 1 + h_al t = - (RtoC 2 * RtoC r))%C).
  { assert (EG : (1 - g * h_al t = - RtoC r * (1 - g))%C) by (rewrite <- WR; unfold h_W; field; auto).
    rewrite g1_eq in EG. assert (EA : (am - ap * h_al t = - RtoC r * (2 * d))%C).
    { transitivity (am * (1 - g * h_al t))%C; [unfold g; field; auto|]. rewrite EG. field. auto. }
    unfold am, ap in EA. rewrite <- EB in EA.
    transitivity ((w * d + d - (w * d - d) * h_al t) / d)%C; [field; auto|]. rewrite EA. field. auto. }
  assert (RP : 0 <= r) by (unfold r; lra). clearbody w r.
  destruct (al_parts t) as [A1 A2]. pose proof (al_norm t) as AN.
  assert (N1 : exp (- (2 * (fst d * t))) < 1) by (rewrite <- exp_0; apply exp_increasing; nra).
  apply (no_cut k b (fst d) (snd d) (fst (h_al t)) (snd (h_al t)) r (fst w) (snd w)); auto.
  - rewrite AN. split; auto. apply exp_pos.
  - apply (f_equal fst) in EB. rewrite h_be in EB. simpl in EB. lra.
  - apply (f_equal snd) in EB. rewrite h_be in EB. simpl in EB. lra.
  - apply (f_equal fst) in EW. generalize dependent (h_al t). intros al. intros. simpl in EW. lra.
  - apply (f_equal snd) in EW. generalize dependent (h_al t). intros al. intros. simpl in EW. lra.
  - intro H. rewrite AN. rewrite A2 in H. pose proof (exp_pos (- (fst d * t))) as EP.
    assert (SN : snd d * sin (snd d * t) < 0) by nra.
    assert (HT : PI < fst d * t).
    { apply Rlt_le_trans with (Rabs (snd d) * t); [|nra]. apply Rnot_le_lt. intro LE.
      assert (0 <= Rabs (snd d) * t) by (pose proof (Rabs_pos (snd d)); nra).
      assert (0 <= sin (Rabs (snd d) * t)) by (apply sin_ge_0; auto).
      unfold Rabs in *. destruct (Rcase_abs (snd d)).
      - replace (- snd d * t) with (- (snd d * t)) in * by ring. rewrite sin_neg in *. nra.
      - nra. }
    pose proof PI_3. apply Rlt_trans with (exp (- (2*3))); [apply exp_increasing; lra|].
    replace (- (2*3)) with (- (3) + - (3)) by ring. rewrite exp_plus. assert (E3 : exp (- (3)) < 1/4).
    { rewrite exp_Ropp. replace (1/4) with (/4) by lra. apply Rinv_lt_contravar; [pose proof (exp_pos 3); lra|]. pose proof (exp_ineq1 3). lra. }
    pose proof (exp_pos (- (3))). nra.
Qed.
Lemma den_ne t : 0 <= t -> (1 - g * h_al t)%C <> 0%C.
Proof.
  intros T E. apply (slit_ne _ (W_slit t T)). unfold h_W. rewrite E. unfold Cdiv. ring.
Qed.
(** *** Riccati *)
Lemma cder_al t : cder h_al t (- d * h_al t)%C.
Proof.
  unfold h_al. eapply cder_eq; [apply cder_exp; apply cder_scal; apply cder_id|]. cbv beta. ring.
Qed.
Lemma cder_den t : cder (fun s => 1 - g * h_al s)%C t (g * d * h_al t)%C.
Proof. eapply cder_eq; [apply cder_minus; [apply cder_const|apply cder_scal; apply cder_al]|]. ring. Qed.
Lemma xi_C : ((/ (xi*xi))%R = / (RtoC xi * RtoC xi) :> C)%C.
Proof. rewrite RtoC_inv by nra. rewrite RtoC_mult. reflexivity. Qed.
Lemma xi_Cne : RtoC xi <> 0%C.
Proof. intro E. apply h_xi. apply (f_equal fst) in E. exact E. Qed.
Lemma v_eq : ((sigma*sigma)%R * v = (d*d - be*be) / (RtoC xi * RtoC xi))%C.
Proof.
  pose proof xi_Cne. rewrite d_sq. replace (RtoC ((sigma*xi)^2)) with (RtoC sigma * RtoC sigma * (RtoC xi * RtoC xi))%C by (rewrite <- !RtoC_mult; f_equal; ring).
  rewrite RtoC_mult. field. auto.
Qed.
Lemma cder_D t : 0 <= t -> cder h_D t ((xi*xi/2)%R * (h_D t * h_D t) - be * h_D t - (/2)%R * ((sigma*sigma)%R * v))%C.
Proof.
  intro T. pose proof (den_ne t T) as N. pose proof xi_Cne as X. pose proof am_ne as AM. unfold h_D. eapply cder_eq.
  { apply cder_scal. apply cder_div; [exact N| |apply cder_den]. apply cder_scal. apply cder_minus; [apply cder_const|apply cder_al]. }
  cbv beta. rewrite v_eq, xi_C. replace (RtoC (xi*xi/2)) with (RtoC xi * RtoC xi * / 2)%C by (unfold Rdiv; rewrite !RtoC_mult, RtoC_inv by lra; reflexivity).
  replace (RtoC (/2)) with (/ 2)%C by (rewrite RtoC_inv by lra; reflexivity).
  assert (NN : (am - ap * h_al t)%C <> 0%C). { intro E. apply N. unfold g. transitivity ((am - ap * h_al t)/am)%C; [field; auto|rewrite E; field; auto]. }
  unfold g, ap, am in *. generalize dependent (h_al t). intros al N NN. pose proof two_ne as N2. rewrite C2 in *. field. repeat split; auto.
Qed.
Lemma cder_L t : 0 <= t -> cder h_L t (h_D t).
Proof.
  intro T. pose proof (den_ne t T) as N. pose proof g1_ne as GN. pose proof xi_Cne as X. pose proof am_ne as AM. pose proof (slit_ne _ (W_slit t T)) as WN.
  unfold h_L. eapply cder_eq.
  { apply cder_scal. apply cder_minus; [apply cder_scal; apply cder_id|]. apply cder_scal. apply cder_log; [apply W_slit; auto|].
    unfold h_W. apply cder_div; [exact GN|apply cder_den|apply cder_const]. }
  unfold h_D. f_equal. unfold h_W in *.
  assert (NN : (am - ap * h_al t)%C <> 0%C). { intro E. apply N. unfold g. transitivity ((am - ap * h_al t)/am)%C; [field; auto|rewrite E; field; auto]. }
  pose proof d_ne. pose proof two_ne as N2. rewrite !g1_eq. unfold g, ap, am in *. generalize dependent (h_al t). intros al N WN NN. rewrite C2 in *. field. repeat split; auto.
Qed.
Lemma D_0 : h_D 0 = 0%C.
Proof. unfold h_D. rewrite al_0. unfold Cdiv. ring. Qed.
Lemma clog_1 : clog 1 = 0%C.
Proof.
  unfold clog, carg. replace (Cmod 1) with 1%R by (rewrite Cmod_R; symmetry; apply Rabs_R1). rewrite ln_1. simpl.
  destruct (Rlt_dec 0 0); [lra|]. unfold Rdiv. rewrite Rinv_1, Rmult_1_r, acos_1. reflexivity.
Qed.
Lemma L_0 : h_L 0 = 0%C.
Proof. unfold h_L. rewrite W_0, clog_1. ring. Qed.
End Heston.
