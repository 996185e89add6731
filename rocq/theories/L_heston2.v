(** The characteristic function of the Heston process: modulus, derivatives. *)
From Coq Require Import Reals Lra Lia Psatz.
From Coquelicot Require Import Coquelicot.
From Verif Require Import M_analytical S_chf L_complex L_heston.
Local Open Scope R_scope.

Lemma nonincr (m m' : R -> R) T : 0 <= T -> (forall t, 0 <= t <= T -> is_derive m t (m' t)) -> (forall t, 0 <= t <= T -> m' t <= 0) -> m T <= m 0.
Proof.
  intros HT D N. destruct (MVT_gen m 0 T m') as (c & B & E).
  - intros t B. rewrite Rmin_left, Rmax_right in B by auto. apply D. lra.
  - intros t B. rewrite Rmin_left, Rmax_right in B by auto. apply continuity_pt_filterlim. apply (ex_derive_continuous (K := R_AbsRing) (V := R_NormedModule)).
    eexists. apply D. lra.
  - rewrite Rmin_left, Rmax_right in B by auto. specialize (N c B). nra.
Qed.
(** r' <= r h and r 0 <= 0 give r <= 0 *)
Lemma gronwall (r r' h : R -> R) T : 0 <= T -> (forall t, 0 <= t -> is_derive r t (r' t)) -> (forall t, 0 <= t -> continuous h t) ->
  (forall t, 0 <= t -> r' t <= r t * h t) -> r 0 <= 0 -> r T <= 0.
Proof.
  intros HT D CH LE R0. set (h0 := fun s => h (Rmax s 0)).
  assert (C0 : forall s, continuous h0 s).
  { intro s. unfold h0. apply continuous_comp; [|apply CH, Rmax_r].
    apply continuity_pt_filterlim. apply continuity_pt_ext with (fun x => (x + 0 + Rabs (x - 0))/2).
    - intro x. unfold Rmax, Rabs. destruct (Rle_dec x 0), (Rcase_abs (x - 0)); lra.
    - apply continuity_pt_mult; [|apply continuity_pt_const; intros x y; reflexivity].
      apply continuity_pt_plus; [apply continuity_pt_plus; [apply continuity_pt_id|apply continuity_pt_const; intros x y; reflexivity]|].
      apply (continuity_pt_comp (fun x => x - 0) Rabs); [|apply Rcontinuity_abs].
      apply continuity_pt_minus; [apply continuity_pt_id|apply continuity_pt_const; intros x y; reflexivity]. }
  set (H := fun t => RInt h0 0 t).
  assert (DH : forall t, is_derive H t (h0 t)).
  { intro t. unfold H. apply (is_derive_RInt h0 (fun x => RInt h0 0 x) 0 t); [|apply C0].
    apply filter_forall. intro x. apply (RInt_correct (V := R_CompleteNormedModule)). apply (ex_RInt_continuous (V := R_CompleteNormedModule)). intros z _. apply C0. }
  pose (m := fun t => r t * exp (- H t)).
  assert (M : m T <= m 0).
  { apply (nonincr m (fun t => (r' t - r t * h0 t) * exp (- H t))); auto.
    - intros t B. unfold m. eapply deq; [apply dmult; [apply D; lra|apply dexp; apply dopp; apply DH]|]. cbv beta. ring.
    - intros t B. specialize (LE t (proj1 B)). unfold h0. rewrite Rmax_left by lra. pose proof (exp_pos (- H t)). nra. }
  unfold m in M. pose proof (exp_pos (- H T)). pose proof (exp_pos (- H 0)). nra.
Qed.

Section Sign.
Variables sigma k xi rho u : R.
Hypothesis h_k : 0 < k.
Hypothesis h_xi : xi <> 0.
Hypothesis h_rho : -1 <= rho <= 1.
Definition h_b := rho*sigma*xi*u.
Definition h_be : C := (k, - h_b).
Definition h_v : C := (u^2, u).
Definition h_d : C := csqrt ((cj h_b - k) * (cj h_b - k) + ((sigma*xi)^2*u)%R * (Ci + u))%C.
Lemma hd_sq : (h_d * h_d = h_be * h_be + ((sigma*xi)^2)%R * h_v)%C.
Proof.
  unfold h_d. match goal with |- (csqrt ?z * _ = _)%C => destruct (csqrt_sq z) as [Q1 Q2]; generalize dependent (csqrt z) end.
  intros e Q1 Q2. apply C_ext.
  - replace (fst (e * e)%C) with (fst e ^2 - snd e ^2) by (simpl; ring). rewrite Q1. unfold h_be, h_v, h_b, cj. simpl. ring.
  - replace (snd (e * e)%C) with (2 * fst e * snd e) by (simpl; ring). rewrite Q2. unfold h_be, h_v, h_b, cj. simpl. ring.
Qed.
Lemma hd_re : 0 < fst h_d /\ Rabs (snd h_d) < fst h_d.
Proof.
  assert (P : 0 <= fst h_d) by apply csqrt_re. pose proof (f_equal fst hd_sq) as E. generalize dependent h_d. intros d P E.
  unfold h_be, h_v, h_b in E. simpl in E.
  assert (B : rho*rho <= 1) by nra.
  assert (S : rho*rho*((sigma*xi*u)*(sigma*xi*u)) <= (sigma*xi*u)*(sigma*xi*u)) by (pose proof (Rle_0_sqr (sigma*xi*u)) as Z; unfold Rsqr in Z; nra).
  assert (M : 0 < fst d * fst d - snd d * snd d) by (rewrite E; assert (0 < k*k) by nra; nra).
  assert (P' : 0 < fst d) by nra. split; auto. apply Rabs_def1; nra.
Qed.
Definition hD := h_D xi h_be h_d.
Definition hL := h_L xi h_be h_d.
Definition hD' t : C := ((xi*xi/2)%R * (hD t * hD t) - h_be * hD t - (/2)%R * ((sigma*sigma)%R * h_v))%C.
Lemma hD_der t : 0 <= t -> cder hD t (hD' t).
Proof. apply (cder_D sigma k xi h_b h_be h_v h_d h_k h_xi eq_refl hd_sq hd_re). Qed.
Lemma hL_der t : 0 <= t -> cder hL t (hD t).
Proof. apply (cder_L k xi h_b h_be h_d h_k h_xi eq_refl hd_re). Qed.
Lemma hD_0 : hD 0 = 0%C. Proof. apply (D_0 xi h_be h_d). Qed.
Lemma hL_0 : hL 0 = 0%C. Proof. apply (L_0 k xi h_b h_be h_d h_k eq_refl hd_re). Qed.
Lemma hD_sign t : 0 <= t -> fst (hD t) <= 0.
Proof.
  intro T. apply (gronwall (fun t => fst (hD t)) (fun t => fst (hD' t)) (fun t => xi*xi/2 * fst (hD t) - k)); auto.
  - intros s S. apply (hD_der s S).
  - intros s S. destruct (cder_cont _ _ _ (hD_der s S)) as [C1 _].
    apply (continuous_minus (K := R_AbsRing) (V := R_NormedModule)); [|apply continuous_const]. apply (continuous_scal_r (K := R_AbsRing) (V := R_NormedModule)). exact C1.
  - intros s S. unfold hD'. generalize (hD s). intro z. unfold h_be, h_v, h_b. simpl.
    assert (0 <= (xi*snd z + rho*sigma*u)^2) by apply pow2_ge_0. assert (rho*rho <= 1) by nra.
    assert ((1 - rho*rho)*(sigma*u*(sigma*u)) >= 0) by (pose proof (Rle_0_sqr (sigma*u)) as Z; unfold Rsqr in Z; nra). nra.
  - rewrite hD_0. simpl. lra.
Qed.
Lemma hL_sign t : 0 <= t -> fst (hL t) <= 0.
Proof.
  intro T. replace 0 with (fst (hL 0)) by (rewrite hL_0; reflexivity). apply (nonincr (fun t => fst (hL t)) (fun t => fst (hD t))); auto.
  - intros s S. apply (hL_der s). lra.
  - intros s S. apply hD_sign. lra.
Qed.
Lemma heston_form x0 mu y0 theta t :
  heston_log_chf x0 mu sigma y0 theta k xi rho t u = cexp (cj u * (ln x0 + mu*t)%R + (theta*k)%R * hL t + y0 * hD t)%C.
Proof.
  unfold heston_log_chf. cbv zeta. fold h_b. fold h_d. unfold hD, hL, h_D, h_L, h_W, h_al.
  replace h_be with (k - cj h_b)%C by (unfold h_be, cj; apply C_ext; simpl; ring).
  f_equal. unfold Rdiv. rewrite !RtoC_mult. unfold Cdiv. ring.
Qed.
End Sign.
