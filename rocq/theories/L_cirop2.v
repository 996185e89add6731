(** Lemmas on the Euler scheme of the Cox-Ingersoll-Ross process: errors of single steps, for means, second moments and
    Laplace transforms. *)
From Coq Require Import Reals Lra Psatz Lia Classical.
From Coquelicot Require Import Coquelicot.
From Verif Require Import S_rv S_dist L_gauss L_gauss2 L_line L_gop L_cirop L_cir P_cir.
Local Open Scope R_scope.

Lemma exp_second u : 0 <= u -> 0 <= exp (- u) - 1 + u <= u*u.
Proof.
  intro U. assert (A := exp_ineq1_le (- u)). assert (B := exp_ineq1_le u). assert (P := exp_pos (- u)). assert (E : exp (- u)*exp u = 1) by (rewrite <- exp_plus, Rplus_opp_l; apply exp_0).
  split; [lra|]. assert (C : exp (- u)*(1 + u) <= 1) by nra. nra.
Qed.
Lemma exp_half_sq y : 0 <= y -> y*y/2 <= exp y.
Proof.
  intro Y. assert (A := exp_ineq1_le (y/2)). assert (E : exp y = exp (y/2)*exp (y/2)) by (rewrite <- exp_plus; f_equal; field). rewrite E.
  assert ((1 + y/2)*(1 + y/2) <= exp (y/2)*exp (y/2)) by (apply Rmult_le_compat; lra).
  assert (B : y/2*(y/2)*2 <= exp (y/2)*exp (y/2)); [|lra]. 
  assert (C := exp_ineq1_le (y/4)). assert (E4 : exp (y/2) = exp (y/4)*exp (y/4)) by (rewrite <- exp_plus; f_equal; field).
  assert (D : (1 + y/4)*(1 + y/4) <= exp (y/2)) by (rewrite E4; apply Rmult_le_compat; lra).
  assert (F : y*(3/4) <= exp (y/2)) by (assert (0 <= (1 - y/4)*(1 - y/4)) by apply Rle_0_sqr; lra).
  assert (y*(3/4)*(y*(3/4)) <= exp (y/2)*exp (y/2)) by (apply Rmult_le_compat; lra). lra.
Qed.

Section Local.
Variables theta k xi : R.
Hypothesis K0 : 0 < k.
Hypothesis T0 : 0 < theta.
Notation Q := (L_cirop.Q theta k xi).
Notation ww := (L_cirop.ww xi).
Notation low := (L_cirop.low xi).
Notation weight := (L_cirop.weight xi).
Section H.
Variable h : R.
Hypothesis H0 : 0 < h.
Lemma sq_abs x : Rabs x <= sq x.
Proof. unfold sq. unfold Rabs. destruct (Rcase_abs x); nra. Qed.
Lemma sq_ge1 x : 1 <= sq x. Proof. unfold sq. nra. Qed.
Lemma neg_abs x : x < 0 -> Rabs x <= ww*h*low h x.
Proof. intro X. assert (A := neg_low xi h H0 x). rewrite Rabs_left by auto. rewrite Rmax_left in A by lra. exact A. Qed.
Lemma neg_sq x : x < 0 -> x*x <= 2*(ww*h*(ww*h))*low h x.
Proof.
  intro X. assert (E := lam_eq xi h H0). assert (L := lam_pos xi h H0). assert (A := exp_half_sq (- (lam xi h*x)) ltac:(nra)). fold (low h x) in A.
  assert (W := ww_pos xi). assert (P : 0 < ww*h) by nra. replace (x*x) with (ww*h*(ww*h)*((lam xi h*x)*(lam xi h*x))) by (transitivity ((lam xi h*(ww*h))*(lam xi h*(ww*h))*(x*x)); [ring|rewrite E; ring]).
  assert (0 < ww*h*(ww*h)) by nra. replace (- (lam xi h*x) * - (lam xi h*x)) with (lam xi h*x*(lam xi h*x)) in A by ring.
  replace (2*(ww*h*(ww*h))*low h x) with (ww*h*(ww*h)*(2*low h x)) by ring. apply Rmult_le_compat_l; lra.
Qed.
End H.

(** *** means *)
Definition vmean (r x : R) : R := theta*(1 - exp (- (k*r))) + exp (- (k*r))*x + 0*(x*x).
Lemma mean_step : exists c, 0 <= c /\ forall h, 0 < h -> 4*(k*h) <= 1 -> forall d r x, 0 <= d <= h -> 0 <= r ->
  Rabs (Q d (vmean r) x - vmean (d + r) x) <= c*h*(d*weight h x).
Proof.
  assert (W := ww_pos xi). exists (k*k*(1 + theta) + k*ww). split; [assert (0 < k*k) by nra; assert (0 < k*ww) by nra; nra|].
  intros h H0 H4 d r x D R0. unfold vmean. rewrite Q_poly by lra. set (e := exp (- (k*r))). assert (E0 : 0 < e) by apply exp_pos.
  assert (E1 : e <= 1) by (unfold e; rewrite <- exp_0; apply exp_le; nra).
  set (w := exp (- (k*d)) - 1 + k*d). assert (KD : 0 <= k*d) by nra. assert (WB := exp_second (k*d) KD). fold w in WB.
  replace (exp (- (k*(d + r)))) with ((1 - k*d + w)*e) by (unfold w, e; replace (- (k*(d + r))) with (- (k*d) + - (k*r)) by ring; rewrite exp_plus; ring).
  unfold Aa. match goal with |- Rabs ?a <= _ => replace a with (e*((theta - x)*w + k*d*(x - pos x))) by ring end.
  rewrite Rabs_mult, (Rabs_pos_eq e) by lra. set (z := (theta - x)*w + k*d*(x - pos x)).
  assert (ZB : Rabs z <= (k*k*(1 + theta) + k*ww)*h*(d*weight h x)).
  { unfold z. eapply Rle_trans; [apply Rabs_triang|]. rewrite !Rabs_mult, (Rabs_pos_eq w), (Rabs_pos_eq k), (Rabs_pos_eq d) by lra.
    assert (L := low_pos xi h x). assert (S1 := sq_ge1 x). assert (SA := sq_abs x).
    assert (A : Rabs (theta - x)*w <= k*k*(1 + theta)*h*(d*sq x)).
    { assert (B : Rabs (theta - x) <= (1 + theta)*sq x). { assert (Rabs (theta - x) <= theta + Rabs x) by (eapply Rle_trans; [apply Rabs_triang|]; rewrite Rabs_Ropp, (Rabs_pos_eq theta); lra). nra. }
      apply Rle_trans with ((1 + theta)*sq x*(k*d*(k*h))).
      - apply Rmult_le_compat; [apply Rabs_pos|lra|exact B|]. assert (k*d*(k*d) <= k*d*(k*h)) by (apply Rmult_le_compat_l; nra). lra.
      - right. ring. }
    assert (B : k*d*Rabs (x - pos x) <= k*ww*h*(d*low h x)).
    { destruct (pos_cases x) as [[X E]|[X E]]; rewrite E.
      - rewrite Rminus_diag_eq, Rabs_R0 by auto. assert (0 <= k*ww*h) by (assert (0 < ww*h) by nra; nra). assert (0 <= d*low h x) by nra. nra.
      - rewrite Rminus_0_r. assert (NA := neg_abs h H0 x X). apply Rle_trans with (k*d*(ww*h*low h x)); [apply Rmult_le_compat_l; auto|right; ring]. }
    unfold L_cirop.weight. assert (0 <= k*k*(1 + theta)*h*(d*low h x)). { assert (0 < k*k*(1 + theta)*h) by (assert (0 < k*k) by nra; assert (0 < (1 + theta)*h) by nra; nra). assert (0 <= d*low h x) by nra. nra. }
    assert (0 <= k*ww*h*(d*sq x)). { assert (0 < k*ww*h) by (assert (0 < ww*h) by nra; nra). assert (0 <= d*sq x) by nra. nra. }
    lra. }
  assert (Z := Rabs_pos z). nra.
Qed.

(** *** second moments *)
Definition mm : R := (2*k*theta + xi*xi)/k.
Lemma mm_pos : 0 < mm. Proof. unfold mm. apply Rdiv_lt_0_compat; [|auto]. assert (0 < k*theta) by nra. nra. Qed.
Lemma mm_xi : xi*xi = (mm - 2*theta)*k. Proof. unfold mm. field. lra. Qed.
Definition vsq (r x : R) : R :=
  let e := exp (- (k*r)) in theta*mm*((1 - e)*(1 - e))/2 + mm*(e - e*e)*x + e*e*(x*x).
Lemma abs3 a b c x m : 0 <= m -> Rabs a <= m -> Rabs b <= m -> Rabs c <= m -> Rabs (a + b*x + c*(x*x)) <= 3*m*sq x.
Proof.
  intros M A B C. eapply Rle_trans; [apply Rabs_triang|]. eapply Rle_trans; [apply Rplus_le_compat_r, Rabs_triang|]. rewrite !Rabs_mult.
  assert (X := sq_abs x). assert (Y := sq_ge1 x). assert (Z : Rabs x*Rabs x <= sq x) by (unfold sq; rewrite <- Rabs_mult; rewrite Rabs_pos_eq; nra). assert (P := Rabs_pos x).
  assert (Rabs b*Rabs x <= m*sq x) by (apply Rmult_le_compat; auto; apply Rabs_pos). assert (Rabs c*(Rabs x*Rabs x) <= m*sq x) by (apply Rmult_le_compat; auto; [apply Rabs_pos|nra]).
  assert (Rabs a*1 <= m*sq x) by (apply Rmult_le_compat; try lra; apply Rabs_pos). lra.
Qed.
Lemma sq_step : exists c, 0 <= c /\ forall h, 0 < h -> 4*(k*h) <= 1 -> forall d r x, 0 <= d <= h -> 0 <= r ->
  Rabs (Q d (vsq r) x - vsq (d + r) x) <= c*h*(d*weight h x).
Proof.
  assert (W := ww_pos xi). assert (MP := mm_pos). set (B0 := 6*(mm + theta + theta*mm + theta*theta + 1)). assert (BP : 0 < B0) by (unfold B0; nra).
  set (B1 := k*(2*mm + 6*theta + 3)). assert (B1P : 0 < B1) by (unfold B1; nra).
  exists (3*B0*(k*k) + B1*(ww + 2*ww*(ww/(4*k)))). assert (WK : 0 < ww/(4*k)) by (apply Rdiv_lt_0_compat; lra).
  assert (C2P : 0 < B1*(ww + 2*ww*(ww/(4*k)))) by (assert (0 < ww*(ww/(4*k))) by nra; nra). assert (C1P : 0 < 3*B0*(k*k)) by (assert (0 < k*k) by nra; nra).
  split; [lra|]. intros h H0 H4 d r x D R0. unfold vsq. cbv zeta. set (e := exp (- (k*r))). assert (E0 : 0 < e) by apply exp_pos.
  assert (E1 : e <= 1) by (unfold e; rewrite <- exp_0; apply exp_le; nra).
  rewrite Q_poly by lra. set (u := k*d). assert (U : 0 <= u) by (unfold u; nra). assert (U4 : u <= 1/4) by (unfold u; nra).
  set (w := exp (- u) - 1 + u). assert (WB := exp_second u U). fold w in WB.
  replace (exp (- (k*(d + r)))) with ((1 - u + w)*e) by (unfold w, e, u; replace (- (k*(d + r))) with (- (k*d) + - (k*r)) by ring; rewrite exp_plus; ring).
  set (ca := theta*mm/2*e*(2*w*(1 - e) - e*((u - w)*(u - w))) + e*e*(u*u)*(theta*theta)).
  set (cb := mm*(- (e*w) + e*e*(u*u + 2*w*(1 - u) + w*w)) - 2*(e*e)*(u*u)*theta).
  set (cc := e*e*(- (2*w*(1 - u)) - w*w)).
  set (neg := if Rle_dec 0 x then 0 else mm*(e - e*e)*u*x + e*e*(2*(x*x)*u + u*u*(2*theta*x - x*x) - (mm - 2*theta)*u*x)).
  match goal with |- Rabs ?a <= _ => replace a with ((ca + cb*x + cc*(x*x)) + neg) end.
  2: { unfold neg, Aa. replace (xi*xi*pos x*d) with ((mm - 2*theta)*u*pos x) by (rewrite mm_xi; unfold u; ring).
       replace (k*(theta - pos x)*d) with (u*(theta - pos x)) by (unfold u; ring).
       destruct (pos_cases x) as [[X E]|[X E]]; rewrite E; destruct (Rle_dec 0 x); try lra; unfold ca, cb, cc; field. }
  assert (UU : u*u <= k*k*(h*d)) by (unfold u; replace (k*d*(k*d)) with (k*k*(d*d)) by ring; apply Rmult_le_compat_l; nra).
  assert (UUP : 0 <= u*u) by nra. assert (ee : 0 <= e*e <= 1) by nra.
  assert (WW : 0 <= w*w <= u*u) by (split; [nra|]; assert (w <= u) by nra; nra).
  assert (A : Rabs (ca + cb*x + cc*(x*x)) <= 3*(B0*(u*u))*sq x).
  { apply abs3; [nra|..]; unfold B0.
    - unfold ca. assert (U1 : 0 <= (u - w)*(u - w) <= u*u) by (assert (0 <= u - w <= u) by nra; nra).
      assert (I : Rabs (2*w*(1 - e) - e*((u - w)*(u - w))) <= 3*(u*u)) by (apply Rabs_le; nra).
      eapply Rle_trans; [apply Rabs_triang|]. rewrite (Rabs_pos_eq (e*e*(u*u)*(theta*theta))) by (assert (0 <= e*e*(u*u)) by nra; nra).
      rewrite Rabs_mult, (Rabs_pos_eq (theta*mm/2*e)) by (assert (0 < theta*mm) by nra; nra).
      assert (theta*mm/2*e*Rabs (2*w*(1 - e) - e*((u - w)*(u - w))) <= theta*mm/2*(3*(u*u))). { rewrite Rmult_assoc. apply Rmult_le_compat_l; [assert (0 < theta*mm) by nra; lra|]. assert (Z := Rabs_pos (2*w*(1 - e) - e*((u - w)*(u - w)))). nra. }
      assert (e*e*(u*u)*(theta*theta) <= u*u*(theta*theta)) by (apply Rmult_le_compat_r; nra). assert (0 <= theta*mm*(u*u)) by (apply Rmult_le_pos; [nra|auto]). assert (0 <= (mm + theta)*(u*u)) by (apply Rmult_le_pos; [nra|auto]). assert (0 <= theta*theta*(u*u)) by (apply Rmult_le_pos; [nra|auto]). lra.
    - unfold cb. assert (I : Rabs (- (e*w) + e*e*(u*u + 2*w*(1 - u) + w*w)) <= 5*(u*u)).
      { assert (0 <= w*(1 - u) <= u*u) by nra. assert (0 <= e*w <= u*u) by nra. assert (0 <= e*e*(u*u + 2*w*(1 - u) + w*w) <= 4*(u*u)) by nra. apply Rabs_le. lra. }
      eapply Rle_trans; [apply Rabs_triang|]. rewrite Rabs_Ropp, Rabs_mult, (Rabs_pos_eq mm) by lra. rewrite (Rabs_pos_eq (2*(e*e)*(u*u)*theta)) by (assert (0 <= e*e*(u*u)) by nra; nra).
      assert (mm*Rabs (- (e*w) + e*e*(u*u + 2*w*(1 - u) + w*w)) <= mm*(5*(u*u))) by (apply Rmult_le_compat_l; lra).
      assert (e*e*(u*u)*theta <= u*u*theta) by (apply Rmult_le_compat_r; nra). assert (0 <= theta*mm*(u*u)) by (apply Rmult_le_pos; [nra|auto]). assert (0 <= mm*(u*u)) by (apply Rmult_le_pos; [lra|auto]). assert (0 <= theta*(u*u)) by (apply Rmult_le_pos; [lra|auto]). assert (0 <= theta*theta*(u*u)) by (apply Rmult_le_pos; [nra|auto]). lra.
    - unfold cc. assert (0 <= w*(1 - u) <= u*u) by nra. assert (I : 0 <= 2*w*(1 - u) + w*w <= 3*(u*u)) by lra.
      apply Rabs_le. assert (e*e*(2*w*(1 - u) + w*w) <= 3*(u*u)) by nra. assert (0 <= e*e*(2*w*(1 - u) + w*w)) by nra. assert (0 <= (mm + theta + theta*mm + theta*theta)*(u*u)) by (apply Rmult_le_pos; [nra|auto]). lra. }
  assert (L := low_pos xi h x). assert (S1 := sq_ge1 x).
  assert (NB : Rabs neg <= B1*(ww + 2*ww*(ww/(4*k)))*h*(d*low h x)).
  { unfold neg. destruct (Rle_dec 0 x) as [X|X].
    - rewrite Rabs_R0. apply Rmult_le_pos; [nra|nra].
    - apply Rnot_le_lt in X. assert (NA := neg_abs h H0 x X). assert (NS := neg_sq h H0 x X).
      assert (I : Rabs (mm*(e - e*e)*u*x + e*e*(2*(x*x)*u + u*u*(2*theta*x - x*x) - (mm - 2*theta)*u*x)) <= u*((2*mm + 6*theta + 3)*(Rabs x + x*x))).
      { replace (mm*(e - e*e)*u*x + e*e*(2*(x*x)*u + u*u*(2*theta*x - x*x) - (mm - 2*theta)*u*x)) with (u*((mm*(e - e*e) + e*e*(2*theta*u) - e*e*(mm - 2*theta))*x + (e*e*(2 - u))*(x*x))) by ring.
        rewrite Rabs_mult, (Rabs_pos_eq u) by auto. apply Rmult_le_compat_l; auto. eapply Rle_trans; [apply Rabs_triang|]. rewrite (Rabs_mult _ x), (Rabs_mult (e*e*(2 - u)) (x*x)), (Rabs_pos_eq (x*x)) by nra.
        assert (J1 : Rabs (mm*(e - e*e) + e*e*(2*theta*u) - e*e*(mm - 2*theta)) <= 2*mm + 6*theta).
        { assert (0 <= e - e*e <= 1) by nra. assert (0 <= mm*(e - e*e) <= mm) by nra. assert (0 <= theta*u <= theta) by nra. assert (0 <= e*e*(2*theta*u) <= 2*theta) by nra. assert (0 <= e*e*mm <= mm) by nra. assert (0 <= e*e*theta <= theta) by nra. apply Rabs_le. lra. }
        assert (J2 : Rabs (e*e*(2 - u)) <= 2) by (rewrite Rabs_pos_eq by nra; nra).
        assert (Rabs (mm*(e - e*e) + e*e*(2*theta*u) - e*e*(mm - 2*theta))*Rabs x <= (2*mm + 6*theta)*Rabs x) by (apply Rmult_le_compat_r; [apply Rabs_pos|auto]).
        assert (Rabs (e*e*(2 - u))*(x*x) <= 2*(x*x)) by (apply Rmult_le_compat_r; [nra|auto]). assert (0 <= x*x) by nra. assert (Z := Rabs_pos x). nra. }
      eapply Rle_trans; [exact I|].
      assert (J : Rabs x + x*x <= (ww + 2*ww*(ww/(4*k)))*h*low h x).
      { assert (HK : ww*h <= ww/(4*k)). { unfold Rdiv. apply Rmult_le_compat_l; [lra|]. apply Rmult_le_reg_l with (4*k); [lra|]. rewrite Rinv_r by lra. lra. }
        assert (WH : 0 < ww*h) by nra. assert (M1 : ww*h*(ww*h) <= ww*h*(ww/(4*k))) by (apply Rmult_le_compat_l; lra). assert (M2 : ww*h*(ww*h)*low h x <= ww*h*(ww/(4*k))*low h x) by (apply Rmult_le_compat_r; lra). lra. }
      unfold u. replace (k*d*((2*mm + 6*theta + 3)*(Rabs x + x*x))) with (B1*d*(Rabs x + x*x)) by (unfold B1; ring).
      apply Rle_trans with (B1*d*((ww + 2*ww*(ww/(4*k)))*h*low h x)); [apply Rmult_le_compat_l; [nra|auto]|right; ring]. }
  eapply Rle_trans; [apply Rabs_triang|].
  assert (A' : 3*(B0*(u*u))*sq x <= 3*B0*(k*k)*h*(d*sq x)).
  { replace (3*(B0*(u*u))*sq x) with (3*B0*(u*u)*sq x) by ring. replace (3*B0*(k*k)*h*(d*sq x)) with (3*B0*(k*k*(h*d))*sq x) by ring. apply Rmult_le_compat_r; [lra|]. apply Rmult_le_compat_l; [lra|auto]. }
  unfold L_cirop.weight. set (C1 := 3*B0*(k*k)) in *. set (C2 := B1*(ww + 2*ww*(ww/(4*k)))) in *.
  assert (0 <= C1*h*(d*low h x)) by (apply Rmult_le_pos; nra). assert (0 <= C2*h*(d*sq x)) by (apply Rmult_le_pos; nra). lra.
Qed.
End Local.
