(** Lemmas on the Euler scheme of the Cox-Ingersoll-Ross process, as an operator on functions of the value. *)
From Coq Require Import Reals Lra Psatz Lia Classical.
From Coquelicot Require Import Coquelicot.
From Verif Require Import S_rv S_dist L_gauss L_gauss2 L_line L_gop.
Local Open Scope R_scope.

(** *** means of functions of a step *)
Lemma step_continuous (a b : R -> R) x z : continuous a x -> continuous b x -> continuous (fun p : R * R => a (fst p) + b (fst p) * snd p) (x, z).
Proof.
  intros A B. apply (continuous_plus (V := R_NormedModule) (fun p : R*R => a (fst p)) (fun p => b (fst p) * snd p)).
  - apply (continuous_comp fst a); [apply continuous_fst|exact A].
  - apply (continuous_mult (K := R_AbsRing) (fun p : R*R => b (fst p)) (fun p => snd p)); [|apply continuous_snd]. apply (continuous_comp fst b); [apply continuous_fst|exact B].
Qed.
Lemma near_abs x0 : locally x0 (fun x => Rabs x <= Rabs x0 + 1).
Proof.
  exists (mkposreal 1 Rlt_0_1). intros x B. change (Rabs (x - x0) < 1) in B. replace x with ((x - x0) + x0) by ring. eapply Rle_trans; [apply Rabs_triang|]. lra.
Qed.
Lemma sq_le_abs b m : b*b <= m -> Rabs b <= 1 + m.
Proof. intro H. assert (A := Rsqr_abs b). unfold Rsqr in A. assert (B := Rabs_pos b). nra. Qed.
Lemma step_tame f a b al be : tame f -> (forall x, continuous a x) -> (forall x, continuous b x) -> 0 <= al -> 0 <= be ->
  (forall x, Rabs (a x) <= al + be * Rabs x) -> (forall x, b x * b x <= al + be * Rabs x) -> tame (fun x => EN (fun z => f (a x + b x * z))).
Proof.
  intros TF A B AL BE HA HB. destruct TF as (HF & C & c & C0 & c0 & D). split.
  - intro x0. set (M := al + be * (Rabs x0 + 1)). assert (M0 : 0 <= M) by (unfold M; assert (Q := Rabs_pos x0); nra).
    apply (EN_continuous (X := R_UniformSpace) (fun x z => f (a x + b x * z)) x0 (2*C*exp (c*M)) (c*(1 + M))); [nra|..].
    + intro z. apply (continuous_comp (fun p : R*R => a (fst p) + b (fst p) * snd p) f); [apply step_continuous; auto|apply HF].
    + intros x z. apply (continuous_comp (fun z => a x + b x * z) f); [|apply HF]. apply (ex_derive_continuous (V := R_NormedModule)). auto_derive. auto.
    + generalize (near_abs x0). apply filter_imp. intros x HX z. eapply Rle_trans; [apply D|]. destruct (ch_abs c (a x + b x*z) c0) as [_ E].
      destruct (ch_abs (c*(1 + M)) z ltac:(nra)) as [F _].
      assert (AX : Rabs (a x) <= M) by (eapply Rle_trans; [apply HA|]; unfold M; nra). assert (BX : Rabs (b x) <= 1 + M) by (apply sq_le_abs; eapply Rle_trans; [apply HB|]; unfold M; nra).
      assert (S : Rabs (a x + b x*z) <= M + (1 + M)*Rabs z). { eapply Rle_trans; [apply Rabs_triang|]. rewrite Rabs_mult. assert (Q := Rabs_pos z). nra. }
      assert (X := exp_le (c * Rabs (a x + b x*z)) (c*M + c*(1 + M)*Rabs z) ltac:(nra)). rewrite exp_plus in X. assert (Y := exp_pos (c*M)).
      replace (2*C*exp (c*M)*ch (c*(1 + M)) z) with (C*(2*(exp (c*M)*ch (c*(1 + M)) z))) by ring. apply Rmult_le_compat_l; [auto|]. nra.
  - exists (2*C*exp (c*al + c*c*al/2)), (c*be + c*c*be/2). split; [assert (X := exp_pos (c*al + c*c*al/2)); nra|]. split; [nra|]. intro x.
    eapply Rle_trans; [apply (EN_abs _ (fun z => C * ch c (a x + b x*z)))|].
    + apply tame_aff. split; [auto|]. exists C, c. auto.
    + apply tame_scal. apply (tame_aff (ch c)). split; [apply ch_cont|]. exists 1, c. repeat split; auto; try lra. intro y. rewrite Rabs_pos_eq by (left; apply ch_pos). lra.
    + intro z. apply D.
    + rewrite EN_scal by (apply (tame_aff (ch c)); split; [apply ch_cont|]; exists 1, c; repeat split; auto; try lra; intro y; rewrite Rabs_pos_eq by (left; apply ch_pos); lra).
      rewrite EN_ch. destruct (ch_abs c (a x) c0) as [_ E]. destruct (ch_abs (c*be + c*c*be/2) x ltac:(nra)) as [F _].
      assert (X := exp_le (c*Rabs (a x) + c*c*(b x*b x)/2) ((c*al + c*c*al/2) + (c*be + c*c*be/2)*Rabs x)). rewrite (exp_plus (c*Rabs (a x))), (exp_plus (c*al + c*c*al/2)) in X.
      specialize (HA x). specialize (HB x). assert (c*c >= 0) by nra. 
      assert (G : exp (c*Rabs (a x)) * exp (c*c*(b x*b x)/2) <= exp (c*al + c*c*al/2) * ch (c*be + c*c*be/2) x).
      { eapply Rle_trans; [apply X; nra|]. apply Rmult_le_compat_l; [left; apply exp_pos|exact F]. }
      assert (Y := exp_pos (c*c*(b x*b x)/2)). replace (2*C*exp (c*al + c*c*al/2)*ch (c*be + c*c*be/2) x) with (C*(2*(exp (c*al + c*c*al/2)*ch (c*be + c*c*be/2) x))) by ring.
      apply Rmult_le_compat_l; [auto|]. nra.
Qed.

(** *** the scheme *)
Section Cir.
Variables theta k xi : R.
Hypothesis K0 : 0 < k.
Hypothesis T0 : 0 < theta.
Definition pos (x : R) : R := Rmax x 0.
Lemma pos_ge x : 0 <= pos x. Proof. apply Rmax_r. Qed.
Lemma pos_le x : x <= pos x. Proof. apply Rmax_l. Qed.
Lemma pos_cases x : (0 <= x /\ pos x = x) \/ (x < 0 /\ pos x = 0).
Proof. unfold pos, Rmax. destruct (Rle_dec x 0); [|left; lra]. destruct (Req_dec x 0); [left; lra|right; lra]. Qed.
Lemma pos_cont x : continuous pos x. Proof. apply tame_max. Qed.
Lemma pos_abs x : pos x <= Rabs x.
Proof. destruct (pos_cases x) as [[H E]|[H E]]; rewrite E; [rewrite Rabs_pos_eq; lra|apply Rabs_pos]. Qed.
Definition Aa (h x : R) : R := x + k*(theta - pos x)*h.
Definition Bb (h x : R) : R := xi*sqrt (pos x)*sqrt h.
Definition Q (h : R) (f : R -> R) (x : R) : R := EN (fun z => f (Aa h x + Bb h x * z)).
Lemma Bb2 h x : 0 <= h -> Bb h x * Bb h x = xi*xi*pos x*h.
Proof. intro H. unfold Bb. replace (xi*sqrt (pos x)*sqrt h*(xi*sqrt (pos x)*sqrt h)) with (xi*xi*(sqrt (pos x)*sqrt (pos x))*(sqrt h*sqrt h)) by ring. rewrite !sqrt_sqrt; auto. apply pos_ge. Qed.
Lemma Q_tame h f : 0 <= h -> tame f -> tame (Q h f).
Proof.
  intros H F. apply (step_tame f (Aa h) (Bb h) (k*theta*h) (1 + k*h + xi*xi*h)); auto.
  - intro x. unfold Aa. apply (continuous_plus (V := R_NormedModule) (fun x => x) (fun x => k*(theta - pos x)*h)); [apply continuous_id|].
    apply (continuous_mult (K := R_AbsRing) (fun x => k*(theta - pos x)) (fun _ => h)); [|apply continuous_const]. apply (continuous_mult (K := R_AbsRing) (fun _ => k) (fun x => theta - pos x)); [apply continuous_const|].
    apply (continuous_minus (V := R_NormedModule) (fun _ => theta) pos); [apply continuous_const|apply pos_cont].
  - intro x. unfold Bb. apply (continuous_mult (K := R_AbsRing) (fun x => xi*sqrt (pos x)) (fun _ => sqrt h)); [|apply continuous_const].
    apply (continuous_mult (K := R_AbsRing) (fun _ => xi) (fun x => sqrt (pos x))); [apply continuous_const|]. apply (continuous_comp pos sqrt); [apply pos_cont|]. apply continuous_sqrt.
  - assert (0 <= k*theta) by nra. nra.
  - assert (0 <= k*h) by nra. nra.
  - intro x. unfold Aa. eapply Rle_trans; [apply Rabs_triang|]. rewrite !Rabs_mult, (Rabs_pos_eq k), (Rabs_pos_eq h) by lra.
    assert (P := pos_abs x). assert (P' := pos_ge x). assert (Z : Rabs (theta - pos x) <= theta + Rabs x) by (apply Rabs_le; lra). assert (0 <= k*h) by nra. assert (0 <= xi*xi*h) by nra. assert (W := Rabs_pos x).
    assert (k*h*Rabs (theta - pos x) <= k*h*(theta + Rabs x)) by (apply Rmult_le_compat_l; auto). nra.
  - intro x. rewrite Bb2 by auto. assert (P := pos_abs x). assert (0 <= k*h) by nra. assert (0 <= k*theta*h) by nra. assert (0 <= xi*xi*h) by nra. assert (W := Rabs_pos x).
    assert (xi*xi*h*pos x <= xi*xi*h*Rabs x) by (apply Rmult_le_compat_l; auto). nra.
Qed.
Lemma Q_ext h f g x : (forall y, f y = g y) -> Q h f x = Q h g x.
Proof. intro E. apply EN_ext. intro. apply E. Qed.
Lemma Q_plus h f g x : tame f -> tame g -> Q h (fun y => f y + g y) x = Q h f x + Q h g x.
Proof. intros F G. unfold Q. apply (EN_plus (fun z => f (Aa h x + Bb h x*z)) (fun z => g (Aa h x + Bb h x*z))); apply tame_aff; auto. Qed.
Lemma Q_scal h a f x : tame f -> Q h (fun y => a * f y) x = a * Q h f x.
Proof. intro F. unfold Q. apply (EN_scal a (fun z => f (Aa h x + Bb h x*z))). apply tame_aff; auto. Qed.
Lemma Q_const h a x : Q h (fun _ => a) x = a.
Proof. exact (EN_const a). Qed.
Lemma Q_le h f g x : tame f -> tame g -> (forall y, f y <= g y) -> Q h f x <= Q h g x.
Proof. intros F G H. apply EN_le; [apply tame_aff; auto|apply tame_aff; auto|]. intro. apply H. Qed.
Lemma Q_abs h f g x : tame f -> tame g -> (forall y, Rabs (f y) <= g y) -> Rabs (Q h f x) <= Q h g x.
Proof. intros F G H. apply EN_abs; [apply tame_aff; auto|apply tame_aff; auto|]. intro. apply H. Qed.
Lemma Q_exp h a b x : 0 <= h -> Q h (fun y => exp (a + b*y)) x = exp (a + b * Aa h x + b*b*(xi*xi*pos x*h)/2).
Proof.
  intro H. unfold Q. rewrite (EN_ext _ (fun z => exp ((a + b*Aa h x) + (b*Bb h x)*z))) by (intro; f_equal; ring). rewrite EN_exp. f_equal.
  rewrite <- (Bb2 h x H). field.
Qed.
Lemma Q_poly h a b c x : 0 <= h -> Q h (fun y => a + b*y + c*(y*y)) x = a + b*Aa h x + c*(Aa h x * Aa h x + xi*xi*pos x*h).
Proof.
  intro H. unfold Q. rewrite (EN_ext _ (fun z => (a + b*Aa h x + c*(Aa h x * Aa h x)) + (b*Bb h x + 2*c*(Aa h x * Bb h x))*z + (c*(Bb h x*Bb h x))*(z*z))) by (intro; ring).
  rewrite EN_poly, (Bb2 h x H). ring.
Qed.
Lemma tame_poly a b c : tame (fun y => a + b*y + c*(y*y)).
Proof. apply tame_plus; [apply tame_plus; [apply tame_const|apply tame_scal, tame_id]|apply tame_scal, tame_mult; apply tame_id]. Qed.

(** *** many steps, of lengths hs n, hs (n + 1), ... *)
Variable hs : nat -> R.
Fixpoint itr (m n : nat) (f : R -> R) : R -> R := match m with O => f | S m => Q (hs n) (itr m (S n) f) end.
Fixpoint span (m n : nat) : R := match m with O => 0 | S m => hs n + span m (S n) end.
Variable N : nat.
Hypothesis HS : forall n, (n < N)%nat -> 0 <= hs n.
Lemma itr_tame f m : forall n, (n + m <= N)%nat -> tame f -> tame (itr m n f).
Proof. induction m as [|m IH]; intros n H F; cbn [itr]; [auto|]. apply Q_tame; [apply HS; lia|]. apply IH; auto. lia. Qed.
Lemma span_ge m : forall n, (n + m <= N)%nat -> 0 <= span m n.
Proof. induction m as [|m IH]; intros n H; cbn [span]; [lra|]. assert (X := IH (S n) ltac:(lia)). assert (Y := HS n ltac:(lia)). lra. Qed.
Lemma itr_le f g m : forall n, (n + m <= N)%nat -> tame f -> tame g -> (forall y, f y <= g y) -> forall x, itr m n f x <= itr m n g x.
Proof.
  induction m as [|m IH]; intros n H F G L x; cbn [itr]; [auto|]. apply Q_le; [apply itr_tame; auto; lia|apply itr_tame; auto; lia|]. apply IH; auto. lia.
Qed.
Lemma itr_scal a f m : forall n, (n + m <= N)%nat -> tame f -> forall x, itr m n (fun y => a * f y) x = a * itr m n f x.
Proof.
  induction m as [|m IH]; intros n H F x; cbn [itr]; [auto|]. rewrite <- Q_scal by (apply itr_tame; auto; lia). apply Q_ext. apply IH; auto. lia.
Qed.
Lemma itr_plus f g m : forall n, (n + m <= N)%nat -> tame f -> tame g -> forall x, itr m n (fun y => f y + g y) x = itr m n f x + itr m n g x.
Proof.
  induction m as [|m IH]; intros n H F G x; cbn [itr]; [auto|]. rewrite <- Q_plus by (apply itr_tame; auto; lia). apply Q_ext. apply IH; auto. lia.
Qed.

(** *** how far below zero *)
Variable h : R.
Hypothesis H0 : 0 < h.
Hypothesis HH : forall n, (n < N)%nat -> hs n <= h.
Hypothesis H4 : 4*(k*h) <= 1.
Definition ww : R := xi*xi + 1.
Definition lam : R := /(ww*h).
Definition low (x : R) : R := exp (- (lam*x)).
Definition kap : R := k*theta/ww.
Lemma ww_pos : 0 < ww. Proof. unfold ww. nra. Qed.
Lemma lam_pos : 0 < lam. Proof. apply Rinv_0_lt_compat. assert (W := ww_pos). nra. Qed.
Lemma kap_pos : 0 < kap. Proof. unfold kap. apply Rdiv_lt_0_compat; [nra|apply ww_pos]. Qed.
Lemma lam_eq : lam*(ww*h) = 1. Proof. unfold lam. apply Rinv_l. assert (W := ww_pos). nra. Qed.
Lemma low_tame : tame low.
Proof. apply (tame_ext (fun x => exp (0 + (- lam)*x))); [intro; unfold low; f_equal; ring|apply tame_exp]. Qed.
Lemma low_pos x : 0 < low x. Proof. apply exp_pos. Qed.
Definition rate (d : R) : R := exp (- (kap*(d/h))).
Lemma Q_low d x : 0 <= d <= h -> Q d low x <= rate d * (low x + 3*(d/h)).
Proof.
  intros [D0 D1]. rewrite (Q_ext _ _ (fun y => exp (0 + (- lam)*y))) by (intro; unfold low; f_equal; ring). rewrite Q_exp by auto.
  assert (W := ww_pos). assert (L := lam_pos). assert (LE := lam_eq). assert (KE : lam*(k*theta*d) = kap*(d/h)).
  { unfold lam, kap. field. split; lra. }
  assert (DH : 0 <= d/h) by (apply Rmult_le_pos; [auto|left; apply Rinv_0_lt_compat; auto]). assert (R0 := exp_pos (- (kap*(d/h)))). fold (rate d) in R0.
  destruct (pos_cases x) as [[X E]|[X E]].
  - set (eps := k*d + lam*(xi*xi)*d/2).
    assert (ED : eps <= 3/4*(d/h)).
    { unfold eps. assert (A1 : k*d <= 1/4*(d/h)). { replace (k*d) with (k*h*(d/h)) by (field; lra). nra. }
      assert (A2 : lam*(xi*xi)*d = (d/h)*(xi*xi/ww)) by (unfold lam; field; split; lra).
      assert (A3 : xi*xi/ww <= 1) by (apply Rmult_le_reg_r with ww; [auto|]; unfold Rdiv; rewrite Rmult_assoc, Rinv_l, Rmult_1_r by lra; unfold ww; lra). nra. }
    assert (DH1 : d/h <= 1). { apply Rmult_le_reg_r with h; [auto|]. unfold Rdiv. rewrite Rmult_assoc, Rinv_l by lra. lra. }
    assert (E0 : 0 <= eps). { unfold eps. assert (0 <= k*d) by nra. assert (0 <= lam*(xi*xi)*d) by (assert (0 <= xi*xi*d) by nra; nra). lra. }
    replace (0 + - lam*Aa d x + - lam * - lam*(xi*xi*pos x*d)/2) with (- (kap*(d/h)) + (- (lam*x*(1 - eps)))) by (rewrite <- KE; unfold Aa, eps; rewrite E; field).
    rewrite exp_plus. fold (rate d). apply Rmult_le_compat_l; [lra|].
    set (y := lam*x). assert (Y : 0 <= y) by (unfold y; nra). set (e1 := exp (- (y*(1 - eps)))).
    assert (EY : low x = exp (- (y*eps)) * e1) by (unfold low, e1; rewrite <- exp_plus; f_equal; unfold y; ring).
    assert (B1 : 1 - y*eps <= exp (- (y*eps))) by (assert (Z := exp_ineq1_le (- (y*eps))); lra).
    assert (B2 : y*(1 - eps)*e1 <= 1).
    { assert (Z := exp_ineq1_le (y*(1 - eps))). assert (Z2 : exp (y*(1 - eps))*e1 = 1) by (unfold e1; rewrite <- exp_plus; rewrite Rplus_opp_r; apply exp_0). assert (Z3 := exp_pos (- (y*(1 - eps)))). fold e1 in Z3. nra. }
    assert (Z3 : 0 < e1) by apply exp_pos. assert (Ye : y*e1 <= 4) by (assert (0 <= y*e1) by nra; nra).
    rewrite EY. assert (e1*(1 - y*eps) <= exp (- (y*eps))*e1) by nra. assert (0 <= y*e1) by nra. nra.
  - replace (0 + - lam*Aa d x + - lam * - lam*(xi*xi*pos x*d)/2) with (- (kap*(d/h)) + (- (lam*x))) by (rewrite <- KE; unfold Aa; rewrite E; field).
    rewrite exp_plus. fold (rate d). fold (low x). apply Rmult_le_compat_l; lra.
Qed.
Definition cst : R := (1 + kap)/kap.
Lemma cst_pos : 0 < cst. Proof. assert (K := kap_pos). apply Rdiv_lt_0_compat; lra. Qed.
Lemma rate_le d : 0 <= d <= h -> d/h <= cst * (1 - rate d) /\ 0 < rate d <= 1.
Proof.
  intros [D0 D1]. assert (K := kap_pos). assert (DH : 0 <= d/h) by (apply Rmult_le_pos; [auto|left; apply Rinv_0_lt_compat; auto]).
  assert (DH1 : d/h <= 1). { apply Rmult_le_reg_r with h; [auto|]. unfold Rdiv. rewrite Rmult_assoc, Rinv_l by lra. lra. }
  assert (R0 : 0 < rate d) by apply exp_pos. set (u := kap*(d/h)). assert (U : 0 <= u) by (unfold u; nra).
  assert (E : rate d * exp u = 1) by (unfold rate, u; rewrite <- exp_plus, Rplus_opp_l; apply exp_0). assert (X := exp_ineq1_le u).
  assert (B : rate d * (1 + u) <= 1) by nra. split.
  - assert (C : u <= (1 + kap)*(1 - rate d)).
    { assert (u <= (1 + u)*(1 - rate d)) by nra. assert (rate d <= 1) by nra. assert (u <= kap) by (unfold u; nra). nra. }
    unfold cst. replace (d/h) with (u/kap) by (unfold u; field; split; lra). unfold Rdiv. rewrite Rmult_assoc, (Rmult_comm (/kap)), <- Rmult_assoc. apply Rmult_le_compat_r; [left; apply Rinv_0_lt_compat; auto|]. lra.
  - nra.
Qed.
Lemma Q_low1 d x : 0 <= d <= h -> Q d low x <= rate d * low x + (1 - rate d) * (3*cst).
Proof.
  intro D. eapply Rle_trans; [apply Q_low; auto|]. destruct (rate_le d D) as [A B]. assert (C := cst_pos).
  assert (DH : 0 <= d/h) by (apply Rmult_le_pos; [lra|left; apply Rinv_0_lt_compat; auto]). nra.
Qed.
Lemma Q_low2 d x : 0 <= d <= h -> Q d low x + d/h/cst * low x <= low x + 3*(d/h).
Proof.
  intro D. assert (A := Q_low d x D). destruct (rate_le d D) as [B R]. assert (C := cst_pos). assert (L := low_pos x).
  assert (DH : 0 <= d/h) by (apply Rmult_le_pos; [lra|left; apply Rinv_0_lt_compat; auto]).
  assert (E : d/h/cst <= 1 - rate d). { apply Rmult_le_reg_r with cst; [auto|]. unfold Rdiv at 1. rewrite Rmult_assoc, Rinv_l by lra. lra. }
  nra.
Qed.
(** the chance to be far below zero stays bounded *)
Lemma itr_low m : forall n x, (n + m <= N)%nat -> itr m n low x <= low x + 3*cst.
Proof.
  assert (C := cst_pos).
  assert (G : forall n, (n + m <= N)%nat -> exists r, 0 <= r <= 1 /\ forall x, itr m n low x <= r * low x + (1 - r)*(3*cst)).
  { induction m as [|m' IH]; intros n H.
    - exists 1. split; [lra|]. intro y. cbn [itr]. lra.
    - destruct (IH (S n) ltac:(lia)) as (r & R & L). assert (D : 0 <= hs n <= h) by (split; [apply HS|apply HH]; lia). exists (r * rate (hs n)). destruct (rate_le _ D) as [_ RR].
      split; [nra|]. intro y. cbn [itr]. eapply Rle_trans; [apply (Q_le _ _ (fun y => r*low y + (1 - r)*(3*cst)))|].
      + apply itr_tame; [lia|apply low_tame].
      + apply tame_plus; [apply tame_scal, low_tame|apply tame_const].
      + exact L.
      + assert (T1 := low_tame). assert (T2 := tame_scal r low T1). assert (T3 := tame_const ((1 - r)*(3*cst))). rewrite (Q_plus _ (fun y => r*low y) (fun _ => (1 - r)*(3*cst))), (Q_scal _ r low), (Q_const _ ((1 - r)*(3*cst))) by assumption. assert (X := Q_low1 (hs n) y D). nra. }
  intros n x H. destruct (G n H) as (r & R & L). specialize (L x). assert (P := low_pos x). nra.
Qed.
Lemma neg_low x : Rmax (- x) 0 <= ww*h*low x.
Proof.
  assert (W := ww_pos). assert (L := low_pos x). apply Rmax_lub; [|assert (0 < ww*h) by nra; nra].
  assert (X := exp_ineq1_le (- (lam*x))). fold (low x) in X. assert (E := lam_eq). assert (0 < ww*h) by nra.
  replace (- x) with (ww*h*(- (lam*x))) by (transitivity (- (lam*(ww*h))*x); [ring|rewrite E; ring]). apply Rmult_le_compat_l; lra.
Qed.
(** *** second moments *)
Definition sq (x : R) : R := 1 + x*x.
Definition c1 : R := k*theta + 2*k*(theta*theta + 1) + xi*xi.
Lemma c1_pos : 0 < c1. Proof. unfold c1. assert (0 < k*theta) by nra. nra. Qed.
Lemma sq_tame : tame sq.
Proof. apply (tame_ext (fun y => 1 + 0*y + 1*(y*y))); [intro; unfold sq; ring|apply tame_poly]. Qed.
Lemma Q_sq d x : 0 <= d <= h -> Q d sq x <= (1 + c1*d) * sq x.
Proof.
  intros [D0 D1]. rewrite (Q_ext _ _ (fun y => 1 + 0*y + 1*(y*y))) by (intro; unfold sq; ring). rewrite Q_poly by auto.
  set (p := pos x). assert (P : 0 <= p) by apply pos_ge. assert (PX : p*p <= x*x /\ p <= 1 + x*x /\ 0 <= x*p).
  { destruct (pos_cases x) as [[X E]|[X E]]; fold p in E; rewrite E; nra. }
  assert (KD : k*d <= 1) by nra. unfold Aa. fold p.
  assert (A : (k*d)*(theta - p)*(theta - p) <= 2*(theta*theta + x*x)).
  { assert (0 <= k*d) by nra. assert ((theta - p)*(theta - p) <= 2*(theta*theta + x*x)) by nra. assert (0 <= (theta - p)*(theta - p)) by apply Rle_0_sqr. nra. }
  assert (B : 2*x*theta <= theta*(1 + x*x)) by (assert (0 <= theta*((1 - x)*(1 - x))) by (apply Rmult_le_pos; [lra|apply Rle_0_sqr]); lra).
  unfold sq, c1.
  assert (E : k*d*((k*d)*(theta - p)*(theta - p)) <= k*d*(2*(theta*theta + x*x))) by (apply Rmult_le_compat_l; nra).
  assert (F : k*d*(2*x*theta) <= k*d*(theta*(1 + x*x))) by (apply Rmult_le_compat_l; nra).
  assert (GG : k*d*0 <= k*d*(x*p)) by (apply Rmult_le_compat_l; nra).
  assert (HHH : d*(xi*xi)*p <= d*(xi*xi)*(1 + x*x)) by (apply Rmult_le_compat_l; [assert (0 <= xi*xi) by nra|]; nra).
  assert (I1 : k*d*(theta*theta + x*x) <= k*d*((theta*theta + 1)*(1 + x*x))) by (apply Rmult_le_compat_l; nra).
  nra.
Qed.

(** *** errors of steps add up *)
Definition weight (x : R) : R := sq x + low x.
Definition upper (r x : R) : R := r*exp (c1*r)*sq x + cst*h*low x + 3*cst*r.
Lemma upper_tame r : tame (upper r).
Proof. apply tame_plus; [apply tame_plus; [apply tame_scal, sq_tame|apply tame_scal, low_tame]|apply tame_const]. Qed.
Lemma Q_upper d r x : 0 <= d <= h -> 0 <= r -> Q d (upper r) x + d*weight x <= upper (d + r) x.
Proof.
  intros D R. unfold upper.
  assert (T1 := sq_tame). assert (T2 := low_tame). assert (T3 := tame_scal (r*exp (c1*r)) sq T1). assert (T4 := tame_scal (cst*h) low T2). assert (T5 := tame_const (3*cst*r)).
  rewrite (Q_plus _ (fun x => r*exp (c1*r)*sq x + cst*h*low x) (fun _ => 3*cst*r)), (Q_plus _ (fun x => r*exp (c1*r)*sq x) (fun x => cst*h*low x)), (Q_scal _ _ sq), (Q_scal _ _ low), (Q_const _ (3*cst*r)) by (assumption || apply tame_plus; assumption).
  assert (C := cst_pos). assert (C1 := c1_pos). assert (S1 : 0 < sq x) by (unfold sq; nra). assert (L := low_pos x). unfold weight.
  assert (A : r*exp (c1*r)*Q d sq x + d*sq x <= (d + r)*exp (c1*(d + r))*sq x).
  { assert (X := Q_sq d x D). assert (E := exp_ineq1_le (c1*d)). assert (P := exp_pos (c1*r)). assert (E1 : 1 <= exp (c1*r)) by (assert (Z := exp_ineq1_le (c1*r)); nra).
    assert (E2 : 1 <= exp (c1*d)) by (assert (0 <= c1*d) by nra; lra). rewrite Rmult_plus_distr_l, exp_plus.
    assert (Y1 : r*exp (c1*r)*Q d sq x <= r*exp (c1*r)*((1 + c1*d)*sq x)) by (apply Rmult_le_compat_l; [nra|auto]).
    assert (Y2 : r*exp (c1*r)*((1 + c1*d)*sq x) <= r*exp (c1*r)*(exp (c1*d)*sq x)) by (apply Rmult_le_compat_l; [nra|]; apply Rmult_le_compat_r; lra).
    assert (Y3 : d*sq x*1 <= d*sq x*(exp (c1*d)*exp (c1*r))) by (apply Rmult_le_compat_l; [nra|]; assert (1*1 <= exp (c1*d)*exp (c1*r)) by (apply Rmult_le_compat; lra); lra). nra. }
  assert (B := Q_low2 d x D). assert (DL : cst*h*(d/h/cst*low x) = d*low x) by (field; split; lra).
  assert (B' : cst*h*(Q d low x + d/h/cst*low x) <= cst*h*(low x + 3*(d/h))) by (apply Rmult_le_compat_l; nra).
  assert (E3 : cst*h*(3*(d/h)) = 3*cst*d) by (field; lra). nra.
Qed.
Variables (v : R -> R -> R) (KK T : R).
Hypothesis KK0 : 0 <= KK.
Hypothesis V : forall r, 0 <= r <= T -> tame (v r).
Hypothesis STEP : forall d r x, 0 <= d <= h -> 0 <= r -> d + r <= T -> Rabs (Q d (v r) x - v (d + r) x) <= KK * (d * weight x).
Lemma itr_close m : forall n x, (n + m <= N)%nat -> span m n <= T -> Rabs (itr m n (v 0) x - v (span m n) x) <= KK * upper (span m n) x.
Proof.
  induction m as [|m IH]; intros n x H ST; cbn [itr span] in *.
  - rewrite Rminus_diag_eq, Rabs_R0 by auto. apply Rmult_le_pos; auto. unfold upper. assert (C := cst_pos). assert (L := low_pos x). assert (0 < cst*h) by nra. nra.
  - set (d := hs n) in *. set (r := span m (S n)) in *. assert (D : 0 <= d <= h) by (split; [apply HS|apply HH]; lia). assert (R0 : 0 <= r) by (apply span_ge; lia).
    assert (TI : tame (itr m (S n) (v 0))) by (apply itr_tame; [lia|apply V; lra]). assert (TV : tame (v r)) by (apply V; lra).
    replace (Q d (itr m (S n) (v 0)) x - v (d + r) x) with (Q d (fun y => itr m (S n) (v 0) y + (-1) * v r y) x + (Q d (v r) x - v (d + r) x)) by (rewrite Q_plus, Q_scal by (auto; apply tame_scal; auto); ring).
    eapply Rle_trans; [apply Rabs_triang|].
    assert (A : Rabs (Q d (fun y => itr m (S n) (v 0) y + -1 * v r y) x) <= Q d (fun y => KK * upper r y) x).
    { apply Q_abs; [apply tame_plus; [auto|apply tame_scal; auto]|apply tame_scal, upper_tame|]. intro y. replace (itr m (S n) (v 0) y + -1 * v r y) with (itr m (S n) (v 0) y - v r y) by ring. apply IH; [lia|]. unfold r in *. lra. }
    rewrite Q_scal in A by apply upper_tame. assert (B := STEP d r x D R0 ST). assert (U := Q_upper d r x D R0). nra.
Qed.
End Cir.
