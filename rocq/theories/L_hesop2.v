(** Lemmas on the Euler scheme of the Heston process, as an operator on functions of the logarithm of the price and of its
    variance: single steps, many steps, and how the errors of steps add up. *)
From Coq Require Import Reals Lra Psatz Lia Classical.
From Coquelicot Require Import Coquelicot.
From Verif Require Import S_rv S_dist S_chf L_gauss L_gauss2 L_line L_complex L_law L_gop L_cirop L_hesop.
Local Open Scope R_scope.

Section Hes.
Variables mu sigma rho theta k xi : R.
Hypothesis K0 : 0 < k.
Hypothesis T0 : 0 < theta.
Hypothesis R1 : rho*rho <= 1.
Definition rr : R := sqrt (1 - rho*rho).
Lemma rr_sq : rr*rr = 1 - rho*rho.
Proof using R1. unfold rr. apply sqrt_sqrt. lra. Qed.
Notation Q := (L_cirop.Q theta k xi).
Notation Aa := (L_cirop.Aa theta k).
Definition drift (h y : R) : R := (mu - sigma*sigma*pos y/2)*h.
Definition sd (h y : R) : R := sqrt (pos y) * sqrt h.
Definition HQ (h : R) (F : R -> R -> R) (x y : R) : R := stpm F (drift h) (Aa h) (sd h) (sigma*rho) (sigma*rr) xi (x, y).
Lemma sd2 h y : 0 <= h -> sd h y * sd h y = pos y*h.
Proof. intro H. unfold sd. replace (sqrt (pos y)*sqrt h*(sqrt (pos y)*sqrt h)) with ((sqrt (pos y)*sqrt (pos y))*(sqrt h*sqrt h)) by ring. rewrite !sqrt_sqrt; auto. apply pos_ge. Qed.
Lemma HQ_eq h F x y : HQ h F x y = EN (fun z => EN (fun z' => F (x + drift h y + (sigma*rho*sd h y)*z + (sigma*rr*sd h y)*z') (Aa h y + (xi*sd h y)*z))).
Proof. reflexivity. Qed.
Lemma HQ_tame h F : 0 <= h -> tame2 F -> tame2 (HQ h F).
Proof using K0 T0.
  intros H TF. apply (stpm_tame F (drift h) (Aa h) (sd h) (sigma*rho) (sigma*rr) xi (Rabs mu*h + k*theta*h) (1 + k*h + h + sigma*sigma*h)); auto.
  - intro y. unfold drift. apply (continuous_mult (K := R_AbsRing) (fun y => mu - sigma*sigma*pos y/2) (fun _ => h)); [|apply continuous_const].
    apply (continuous_minus (V := R_NormedModule) (fun _ => mu) (fun y => sigma*sigma*pos y/2)); [apply continuous_const|].
    apply (continuous_mult (K := R_AbsRing) (fun y => sigma*sigma*pos y) (fun _ => /2)); [|apply continuous_const]. apply (continuous_mult (K := R_AbsRing) (fun _ => sigma*sigma) pos); [apply continuous_const|apply pos_cont].
  - intro x. unfold L_cirop.Aa. apply (continuous_plus (V := R_NormedModule) (fun x => x) (fun x => k*(theta - pos x)*h)); [apply continuous_id|].
    apply (continuous_mult (K := R_AbsRing) (fun x => k*(theta - pos x)) (fun _ => h)); [|apply continuous_const]. apply (continuous_mult (K := R_AbsRing) (fun _ => k) (fun x => theta - pos x)); [apply continuous_const|].
    apply (continuous_minus (V := R_NormedModule) (fun _ => theta) pos); [apply continuous_const|apply pos_cont].
  - intro x. unfold sd. apply (continuous_mult (K := R_AbsRing) (fun x => sqrt (pos x)) (fun _ => sqrt h)); [|apply continuous_const]. apply (continuous_comp pos sqrt); [apply pos_cont|]. apply continuous_sqrt.
  - assert (P := Rabs_pos mu). assert (0 <= k*theta) by nra. assert (0 <= Rabs mu*h) by nra. assert (0 <= k*theta*h) by nra. lra.
  - assert (0 <= k*h) by nra. assert (0 <= sigma*sigma*h) by (apply Rmult_le_pos; [apply Rle_0_sqr|auto]). lra.
  - intro y. unfold drift. rewrite Rabs_mult, (Rabs_pos_eq h) by auto. assert (P := pos_abs y). assert (P' := pos_ge y). assert (S2 := Rle_0_sqr sigma). unfold Rsqr in S2.
    assert (Z : Rabs (mu - sigma*sigma*pos y/2) <= Rabs mu + sigma*sigma*Rabs y).
    { eapply Rle_trans; [apply Rabs_triang|]. rewrite Rabs_Ropp. apply Rplus_le_compat_l. assert (Z1 : 0 <= sigma*sigma*pos y) by nra. rewrite Rabs_pos_eq by lra. nra. }
    assert (Z2 : Rabs (mu - sigma*sigma*pos y/2)*h <= (Rabs mu + sigma*sigma*Rabs y)*h) by (apply Rmult_le_compat_r; auto). assert (W := Rabs_pos y). assert (0 <= k*theta*h) by (assert (0 <= k*theta) by nra; nra). assert (0 <= (1 + k*h + h)*Rabs y) by (apply Rmult_le_pos; [assert (0 <= k*h) by nra; lra|auto]). nra.
  - intro x. unfold L_cirop.Aa. eapply Rle_trans; [apply Rabs_triang|]. rewrite !Rabs_mult, (Rabs_pos_eq k), (Rabs_pos_eq h) by lra.
    assert (P := pos_abs x). assert (P' := pos_ge x). assert (Z : Rabs (theta - pos x) <= theta + Rabs x) by (apply Rabs_le; lra). assert (0 <= k*h) by nra. assert (W := Rabs_pos x). assert (S2 := Rle_0_sqr sigma). unfold Rsqr in S2.
    assert (k*h*Rabs (theta - pos x) <= k*h*(theta + Rabs x)) by (apply Rmult_le_compat_l; auto). assert (0 <= Rabs mu*h) by (apply Rmult_le_pos; [apply Rabs_pos|auto]). assert (0 <= (h + sigma*sigma*h)*Rabs x) by (apply Rmult_le_pos; nra). nra.
  - intro x. rewrite sd2 by auto. assert (P := pos_abs x). assert (W := Rabs_pos x). assert (0 <= Rabs mu*h) by (apply Rmult_le_pos; [apply Rabs_pos|auto]). assert (0 <= k*theta*h) by (assert (0 <= k*theta) by nra; nra).
    assert (S2 := Rle_0_sqr sigma). unfold Rsqr in S2. assert (0 <= (1 + k*h + sigma*sigma*h)*Rabs x) by (apply Rmult_le_pos; [assert (0 <= k*h) by nra; nra|auto]). assert (pos x*h <= Rabs x*h) by (apply Rmult_le_compat_r; auto). nra.
Qed.
Lemma HQ_ext h F G x y : (forall x y, F x y = G x y) -> HQ h F x y = HQ h G x y.
Proof. intro E. apply EN2_ext. intros. apply E. Qed.
Lemma HQ_plus h F G x y : tame2 F -> tame2 G -> HQ h (fun x y => F x y + G x y) x y = HQ h F x y + HQ h G x y.
Proof. intros TF TG. apply (EN2_plus (stp F (drift h) (Aa h) (sd h) (sigma*rho) (sigma*rr) xi (x, y)) (stp G (drift h) (Aa h) (sd h) (sigma*rho) (sigma*rr) xi (x, y))); apply stp_tame; auto. Qed.
Lemma HQ_scal h a F x y : tame2 F -> HQ h (fun x y => a * F x y) x y = a * HQ h F x y.
Proof. intros TF. apply (EN2_scal a (stp F (drift h) (Aa h) (sd h) (sigma*rho) (sigma*rr) xi (x, y))); apply stp_tame; auto. Qed.
Lemma HQ_const h a x y : HQ h (fun _ _ => a) x y = a.
Proof. exact (EN2_const a). Qed.
Lemma HQ_le h F G x y : tame2 F -> tame2 G -> (forall x y, F x y <= G x y) -> HQ h F x y <= HQ h G x y.
Proof. intros TF TG H. apply EN2_le; [apply stp_tame; auto|apply stp_tame; auto|]. intros. apply H. Qed.
Lemma HQ_abs h F G x y : tame2 F -> tame2 G -> (forall x y, Rabs (F x y) <= G x y) -> Rabs (HQ h F x y) <= HQ h G x y.
Proof. intros TF TG H. apply EN2_abs; [apply stp_tame; auto|apply stp_tame; auto|]. intros. apply H. Qed.
(** the variance alone follows the Cox-Ingersoll-Ross process *)
Lemma HQ_y h f x y : HQ h (fun _ y => f y) x y = Q h f y.
Proof.
  rewrite HQ_eq. unfold L_cirop.Q. apply EN_ext. intro z. rewrite (EN_const (f (Aa h y + xi*sd h y*z))). f_equal. unfold Bb, sd. ring.
Qed.
(** the price is expected to grow at the given rate, however large the step *)
Lemma HQ_exp h a x y : 0 <= h -> HQ h (fun x _ => exp (a + x)) x y = exp (a + mu*h + x).
Proof using R1.
  intro H. rewrite HQ_eq. assert (S2 := sd2 h y H). set (s := sd h y) in *.
  rewrite (EN_ext _ (fun z => exp ((a + x + drift h y + (sigma*rr*s)*(sigma*rr*s)/2) + (sigma*rho*s)*z))).
  - rewrite EN_exp. f_equal. assert (E := rr_sq). transitivity (a + x + drift h y + sigma*sigma*(rr*rr + rho*rho)*(s*s)/2); [field|]. rewrite E, S2. unfold drift. field.
  - intro z. rewrite (EN_ext _ (fun z' => exp ((a + x + drift h y + sigma*rho*s*z) + (sigma*rr*s)*z'))) by (intro; f_equal; ring). rewrite EN_exp. f_equal. field.
Qed.
Lemma HQ_poly h c0 c1 c2 c3 c4 c5 x y : 0 <= h ->
  HQ h (fun x y => c0 + c1*x + c2*y + c3*(x*x) + c4*(x*y) + c5*(y*y)) x y =
  let X := x + drift h y in let Y := Aa h y in
  c0 + c1*X + c2*Y + c3*(X*X) + c4*(X*Y) + c5*(Y*Y) + (c3*(sigma*sigma) + c4*(rho*sigma*xi) + c5*(xi*xi))*(pos y*h).
Proof using R1.
  intro H. rewrite HQ_eq. cbv zeta. set (X := x + drift h y). set (Y := Aa h y). rewrite <- (sd2 h y H). set (s := sd h y). assert (E := rr_sq).
  rewrite (EN_ext _ (fun z => (c0 + c1*X + c2*Y + c3*(X*X + sigma*sigma*(rr*rr)*(s*s)) + c4*(X*Y) + c5*(Y*Y))
    + (c1*(sigma*rho*s) + c2*(xi*s) + c3*(2*X*(sigma*rho*s)) + c4*(X*(xi*s) + Y*(sigma*rho*s)) + c5*(2*Y*(xi*s)))*z
    + ((c3*(sigma*rho*s*(sigma*rho*s)) + c4*(sigma*rho*s*(xi*s)) + c5*(xi*s*(xi*s))))*(z*z))).
  - rewrite EN_poly, E. ring.
  - intro z. rewrite (EN_ext _ (fun z' => (c0 + c1*(X + sigma*rho*s*z) + c2*(Y + xi*s*z) + c3*((X + sigma*rho*s*z)*(X + sigma*rho*s*z)) + c4*((X + sigma*rho*s*z)*(Y + xi*s*z)) + c5*((Y + xi*s*z)*(Y + xi*s*z)))
      + (c1*(sigma*rr*s) + 2*c3*((X + sigma*rho*s*z)*(sigma*rr*s)) + c4*(sigma*rr*s*(Y + xi*s*z)))*z' + (c3*(sigma*rr*s*(sigma*rr*s)))*(z'*z'))) by (intro; ring). rewrite EN_poly. ring.
Qed.
Lemma tame2_poly c0 c1 c2 c3 c4 c5 : tame2 (fun x y => c0 + c1*x + c2*y + c3*(x*x) + c4*(x*y) + c5*(y*y)).
Proof.
  assert (IX := tame2_x (fun x => x) tame_id). assert (IY := tame2_y (fun x => x) tame_id). cbv beta in IX, IY.
  assert (A1 := tame2_const c0). assert (A2 := tame2_scal c1 _ IX). assert (A3 := tame2_scal c2 _ IY).
  assert (A4 := tame2_scal c3 _ (tame2_mult _ _ IX IX)). assert (A5 := tame2_scal c4 _ (tame2_mult _ _ IX IY)). assert (A6 := tame2_scal c5 _ (tame2_mult _ _ IY IY)).
  exact (tame2_plus _ _ (tame2_plus _ _ (tame2_plus _ _ (tame2_plus _ _ (tame2_plus _ _ A1 A2) A3) A4) A5) A6).
Qed.

(** *** many steps *)
Variable hs : nat -> R.
Fixpoint itr2 (m n : nat) (F : R -> R -> R) : R -> R -> R := match m with O => F | S m => HQ (hs n) (itr2 m (S n) F) end.
Variable N : nat.
Hypothesis HS : forall n, (n < N)%nat -> 0 <= hs n.
Notation span := (L_cirop.span hs).
Lemma itr2_tame F m : forall n, (n + m <= N)%nat -> tame2 F -> tame2 (itr2 m n F).
Proof using K0 T0 HS. induction m as [|m IH]; intros n H TF; cbn [itr2]; [auto|]. apply HQ_tame; [apply HS; lia|]. apply IH; auto. lia. Qed.
Lemma itr2_y f m : forall n x y, itr2 m n (fun _ y => f y) x y = itr theta k xi hs m n f y.
Proof.
  induction m as [|m IH]; intros n x y; cbn [itr2 itr]; [reflexivity|]. rewrite (HQ_ext _ _ (fun _ y => itr theta k xi hs m (S n) f y)) by (intros; apply IH). apply HQ_y.
Qed.
Lemma itr2_exp m : forall n x y, (n + m <= N)%nat -> itr2 m n (fun x _ => exp x) x y = exp (mu*span m n + x).
Proof using K0 T0 R1 HS.
  induction m as [|m IH]; intros n x y H; cbn [itr2 L_cirop.span]; [f_equal; ring|]. rewrite (HQ_ext _ _ (fun x _ => exp (mu*span m (S n) + x))) by (intros; apply IH; lia). rewrite HQ_exp by (apply HS; lia). f_equal. ring.
Qed.
Lemma itr2_scal a F m : forall n, (n + m <= N)%nat -> tame2 F -> forall x y, itr2 m n (fun x y => a * F x y) x y = a * itr2 m n F x y.
Proof using K0 T0 HS.
  induction m as [|m IH]; intros n H TF x y; cbn [itr2]; [auto|]. rewrite <- HQ_scal by (apply itr2_tame; auto; lia). apply HQ_ext. apply IH; auto. lia.
Qed.
Lemma itr2_plus F G m : forall n, (n + m <= N)%nat -> tame2 F -> tame2 G -> forall x y, itr2 m n (fun x y => F x y + G x y) x y = itr2 m n F x y + itr2 m n G x y.
Proof using K0 T0 HS.
  induction m as [|m IH]; intros n H TF TG x y; cbn [itr2]; [auto|]. rewrite <- HQ_plus by (apply itr2_tame; auto; lia). apply HQ_ext. apply IH; auto. lia.
Qed.

(** *** errors of steps add up *)
Variable h : R.
Hypothesis H0 : 0 < h.
Hypothesis HH : forall n, (n < N)%nat -> hs n <= h.
Hypothesis H4 : 4*(k*h) <= 1.
Hypothesis H1 : h <= 1.
Notation low := (L_cirop.low xi h).
Notation cst := (L_cirop.cst theta k xi).
Definition sq2 (x y : R) : R := 1 + x*x + y*y.
Definition c2 : R := c1 theta k xi + 1 + 2*(2*(mu*mu) + sigma*sigma*(sigma*sigma)) + sigma*sigma.
Lemma sq2_ge x y : 1 <= sq2 x y. Proof. unfold sq2. assert (A := Rle_0_sqr x). assert (B := Rle_0_sqr y). unfold Rsqr in *. lra. Qed.
Lemma c2_pos : 0 < c2. Proof using K0 T0. unfold c2. assert (C := c1_pos theta k xi K0 T0). assert (A := Rle_0_sqr mu). assert (B := Rle_0_sqr sigma). assert (D := Rle_0_sqr (sigma*sigma)). unfold Rsqr in *. lra. Qed.
Lemma sq2_tame : tame2 sq2.
Proof. apply (tame2_ext (fun x y => 1 + 0*x + 0*y + 1*(x*x) + 0*(x*y) + 1*(y*y))); [intros; unfold sq2; ring|apply tame2_poly]. Qed.
Lemma HQ_sq2 d x y : 0 <= d <= h -> HQ d sq2 x y <= (1 + c2*d) * sq2 x y.
Proof using K0 T0 R1 H4 H1 H0.
  intro D. assert (IX := tame2_x (fun x => x) tame_id). cbv beta in IX. assert (TX := tame2_mult _ _ IX IX). assert (TY := tame2_y _ sq_tame).
  rewrite (HQ_ext _ _ (fun x y => x*x + sq y)) by (intros; unfold sq2, sq; ring). rewrite (HQ_plus _ (fun x _ => x*x) (fun _ y => sq y)) by assumption. rewrite (HQ_y _ sq).
  assert (A := Q_sq theta k xi K0 T0 h H0 H4 d y D). rewrite (HQ_ext _ _ (fun x y => 0 + 0*x + 0*y + 1*(x*x) + 0*(x*y) + 0*(y*y))) by (intros; ring). rewrite HQ_poly by lra. cbv zeta.
  set (p := pos y). assert (P : 0 <= p) by apply pos_ge. assert (P2 : p*p <= y*y /\ p <= 1 + y*y). { destruct (pos_cases y) as [[X E]|[X E]]; fold p in E; rewrite E; nra. }
  set (q := mu - sigma*sigma*p/2). assert (Q2 : q*q <= 2*(mu*mu) + sigma*sigma*(sigma*sigma)*(y*y)).
  { assert (S4 := Rle_0_sqr (sigma*sigma)). unfold Rsqr in S4. assert (Z1 : sigma*sigma*(sigma*sigma)*(p*p) <= sigma*sigma*(sigma*sigma)*(y*y)) by (apply Rmult_le_compat_l; tauto).
    assert (Z2 : 0 <= (mu + sigma*sigma*p/2)*(mu + sigma*sigma*p/2)) by apply Rle_0_sqr. assert (Z3 : 0 <= sigma*sigma*(sigma*sigma)*(p*p)) by (apply Rmult_le_pos; [auto|apply Rle_0_sqr]). unfold q. lra. }
  assert (DR : drift d y = q*d) by reflexivity. rewrite DR. clear DR.
  assert (QP : 0 <= q*q) by apply Rle_0_sqr. assert (S2 := Rle_0_sqr sigma). unfold Rsqr in S2.
  assert (C : (x + q*d)*(x + q*d) <= x*x + d*(x*x + 2*(q*q))).
  { assert (Z : 2*x*q <= x*x + q*q) by (assert (Z0 := Rle_0_sqr (x - q)); unfold Rsqr in Z0; lra). assert (Z2 : d*(2*x*q) <= d*(x*x + q*q)) by (apply Rmult_le_compat_l; lra). assert (Z3 : d*(d*(q*q)) <= d*(1*(q*q))) by (apply Rmult_le_compat_l; [lra|]; apply Rmult_le_compat_r; lra). lra. }
  assert (B : 2*(q*q) <= 2*(2*(mu*mu) + sigma*sigma*(sigma*sigma))*(1 + x*x + y*y)).
  { assert (M := Rle_0_sqr mu). assert (X := Rle_0_sqr x). assert (Y := Rle_0_sqr y). assert (S4 := Rle_0_sqr (sigma*sigma)). unfold Rsqr in *. assert (Z1 : 0 <= mu*mu*(x*x + y*y)) by (apply Rmult_le_pos; lra). assert (Z2 : 0 <= sigma*sigma*(sigma*sigma)*(1 + x*x)) by (apply Rmult_le_pos; lra). lra. }
  assert (B2 : sigma*sigma*p <= sigma*sigma*(1 + x*x + y*y)) by (apply Rmult_le_compat_l; [auto|]; assert (Z := Rle_0_sqr x); unfold Rsqr in Z; lra).
  assert (B3 : d*(2*(q*q)) <= d*(2*(2*(mu*mu) + sigma*sigma*(sigma*sigma))*(1 + x*x + y*y))) by (apply Rmult_le_compat_l; lra).
  assert (B4 : d*(sigma*sigma*p) <= d*(sigma*sigma*(1 + x*x + y*y))) by (apply Rmult_le_compat_l; lra).
  assert (C1 := c1_pos theta k xi K0 T0). assert (B5 : 0 <= c1 theta k xi*d*(x*x)) by (apply Rmult_le_pos; [nra|apply Rle_0_sqr]). assert (Y := Rle_0_sqr y). unfold Rsqr in Y. assert (B6 : d*(x*x) <= d*(1 + x*x + y*y)) by (apply Rmult_le_compat_l; lra).
  unfold sq2, c2. unfold sq in A at 2. lra.
Qed.
Definition weight2 (x y : R) : R := sq2 x y + low y.
Definition upper2 (r x y : R) : R := r*exp (c2*r)*sq2 x y + cst*h*low y + 3*cst*r.
Lemma low2_tame : tame2 (fun _ y => low y). Proof. exact (tame2_y _ (low_tame xi h)). Qed.
Lemma upper2_tame r : tame2 (upper2 r).
Proof. exact (tame2_plus _ _ (tame2_plus _ _ (tame2_scal _ _ sq2_tame) (tame2_scal _ _ low2_tame)) (tame2_const _)). Qed.
Lemma HQ_upper d r x y : 0 <= d <= h -> 0 <= r -> HQ d (upper2 r) x y + d*weight2 x y <= upper2 (d + r) x y.
Proof using K0 T0 R1 H4 H1 H0.
  intros D R. unfold upper2.
  assert (T1 := sq2_tame). assert (T2 := low2_tame). assert (T3 := tame2_scal (r*exp (c2*r)) sq2 T1). assert (T4 := tame2_scal (cst*h) _ T2). assert (T5 := tame2_const (3*cst*r)). cbv beta in T4.
  rewrite (HQ_plus _ (fun x y => r*exp (c2*r)*sq2 x y + cst*h*low y) (fun _ _ => 3*cst*r)), (HQ_plus _ (fun x y => r*exp (c2*r)*sq2 x y) (fun _ y => cst*h*low y)), (HQ_scal _ _ sq2), (HQ_scal _ _ (fun _ y => low y)), (HQ_const _ (3*cst*r)), (HQ_y _ low) by (assumption || (apply tame2_plus; assumption)).
  assert (C := cst_pos theta k xi K0 T0). assert (C2 := c2_pos). assert (S1 := sq2_ge x y). assert (L := low_pos xi h y). unfold weight2.
  assert (A : r*exp (c2*r)*HQ d sq2 x y + d*sq2 x y <= (d + r)*exp (c2*(d + r))*sq2 x y).
  { assert (X := HQ_sq2 d x y D). assert (E := exp_ineq1_le (c2*d)). assert (P := exp_pos (c2*r)). assert (E1 : 1 <= exp (c2*r)) by (assert (Z := exp_ineq1_le (c2*r)); nra).
    assert (E2 : 1 <= exp (c2*d)) by (assert (0 <= c2*d) by nra; lra). rewrite Rmult_plus_distr_l, exp_plus.
    assert (Y1 : r*exp (c2*r)*HQ d sq2 x y <= r*exp (c2*r)*((1 + c2*d)*sq2 x y)) by (apply Rmult_le_compat_l; [nra|auto]).
    assert (Y2 : r*exp (c2*r)*((1 + c2*d)*sq2 x y) <= r*exp (c2*r)*(exp (c2*d)*sq2 x y)) by (apply Rmult_le_compat_l; [nra|]; apply Rmult_le_compat_r; lra).
    assert (Y3 : d*sq2 x y*1 <= d*sq2 x y*(exp (c2*d)*exp (c2*r))) by (apply Rmult_le_compat_l; [nra|]; assert (1*1 <= exp (c2*d)*exp (c2*r)) by (apply Rmult_le_compat; lra); lra). lra. }
  assert (B := Q_low2 theta k xi K0 T0 h H0 H4 d y D). assert (DL : cst*h*(d/h/cst*low y) = d*low y) by (field; split; lra).
  assert (B' : cst*h*(Q d low y + d/h/cst*low y) <= cst*h*(low y + 3*(d/h))) by (apply Rmult_le_compat_l; nra).
  assert (E3 : cst*h*(3*(d/h)) = 3*cst*d) by (field; lra). nra.
Qed.
Variables (v : R -> R -> R -> R) (KK T : R).
Hypothesis KK0 : 0 <= KK.
Hypothesis V : forall r, 0 <= r <= T -> tame2 (v r).
Hypothesis STEP : forall d r x y, 0 <= d <= h -> 0 <= r -> d + r <= T -> Rabs (HQ d (v r) x y - v (d + r) x y) <= KK * (d * weight2 x y).
Lemma itr2_close m : forall n x y, (n + m <= N)%nat -> span m n <= T -> Rabs (itr2 m n (v 0) x y - v (span m n) x y) <= KK * upper2 (span m n) x y.
Proof using K0 T0 R1 H4 H1 H0 HS HH KK0 V STEP.
  induction m as [|m IH]; intros n x y H ST; cbn [itr2 L_cirop.span] in *.
  - rewrite Rminus_diag_eq, Rabs_R0 by auto. apply Rmult_le_pos; auto. unfold upper2. assert (C := cst_pos theta k xi K0 T0). assert (L := low_pos xi h y). assert (0 < cst*h) by nra. nra.
  - set (d := hs n) in *. set (r := span m (S n)) in *. assert (D : 0 <= d <= h) by (split; [apply HS|apply HH]; lia). assert (R0 : 0 <= r) by (apply (span_ge hs N HS); lia).
    assert (TI : tame2 (itr2 m (S n) (v 0))) by (apply itr2_tame; [lia|apply V; lra]). assert (TV : tame2 (v r)) by (apply V; lra). assert (TN := tame2_scal (-1) _ TV). cbv beta in TN.
    replace (HQ d (itr2 m (S n) (v 0)) x y - v (d + r) x y) with (HQ d (fun x y => itr2 m (S n) (v 0) x y + (-1) * v r x y) x y + (HQ d (v r) x y - v (d + r) x y)) by (rewrite HQ_plus, HQ_scal by assumption; ring).
    eapply Rle_trans; [apply Rabs_triang|].
    assert (A : Rabs (HQ d (fun x y => itr2 m (S n) (v 0) x y + -1 * v r x y) x y) <= HQ d (fun x y => KK * upper2 r x y) x y).
    { apply HQ_abs; [apply tame2_plus; auto|apply tame2_scal, upper2_tame|]. intros x' y'. replace (itr2 m (S n) (v 0) x' y' + -1 * v r x' y') with (itr2 m (S n) (v 0) x' y' - v r x' y') by ring. apply IH; [lia|]. unfold r in *. lra. }
    rewrite HQ_scal in A by apply upper2_tame. assert (B := STEP d r x y D R0 ST). assert (U := HQ_upper d r x y D R0). nra.
Qed.
End Hes.
