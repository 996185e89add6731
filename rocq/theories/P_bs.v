(** Properties of the Black-Scholes formulas: C53, C54, C60. *)
From Coq Require Import List Arith Bool Reals Lra Lia.
From Coquelicot Require Import Coquelicot.
From Verif Require Import Base M_analytical S_analytical.
Local Open Scope R_scope.

Lemma sgn_pos x : 0 < x -> sgn x = Gt.
Proof. intro H. unfold sgn. destruct (total_order_T x 0) as [[|]|]; auto; lra. Qed.
Lemma sgn_neg x : x < 0 -> sgn x = Lt.
Proof. intro H. unfold sgn. destruct (total_order_T x 0) as [[|]|]; auto; lra. Qed.
Lemma sgn_0 : sgn 0 = Eq.
Proof. unfold sgn. destruct (total_order_T 0 0) as [[|]|]; auto; lra. Qed.
Lemma inf_of_nan x : is_nan (inf_of x) = true <-> x = 0.
Proof.
  unfold inf_of. destruct (total_order_T x 0) as [[H|H]|H].
  - rewrite sgn_neg by auto. split; [discriminate|lra].
  - subst. rewrite sgn_0. tauto.
  - rewrite sgn_pos by auto. split; [discriminate|lra].
Qed.
Lemma rdiv_pos x y : 0 < x -> 0 < y -> elog (rdiv x y) = Fin (ln (x/y)).
Proof.
  intros X Y. unfold rdiv. destruct (Req_EM_T y 0); [lra|]. simpl. rewrite sgn_pos; auto. apply Rdiv_lt_0_compat; auto.
Qed.
Lemma quot_sign x y : y <> 0 -> x / y < 0 <-> (0 < y /\ x < 0) \/ (y < 0 /\ 0 < x).
Proof.
  intro Y. assert (E : x = x / y * y) by (field; auto). split.
  - intro H. destruct (Rtotal_order y 0) as [L|[L|L]]; [right|lra|left]; split; auto; rewrite E.
    + apply Ropp_lt_cancel. rewrite Ropp_0, Ropp_mult_distr_r. apply Rmult_lt_reg_r with (/ - y); [apply Rinv_0_lt_compat; lra|].
      rewrite Rmult_0_l, Rmult_assoc, Rinv_r by lra. lra.
    + apply Rmult_lt_reg_r with (/ y); [apply Rinv_0_lt_compat; lra|]. rewrite Rmult_0_l, Rmult_assoc, Rinv_r by lra. lra.
  - intros [[H1 H2]|[H1 H2]].
    + apply Rmult_lt_reg_r with y; auto. rewrite <- E. lra.
    + apply Ropp_lt_cancel. rewrite Ropp_0. apply Rmult_lt_reg_r with (- y); [lra|].
      replace (- (x/y) * - y) with x by (rewrite E at 1; ring). lra.
Qed.
Lemma elog_nan x0 k : is_nan (elog (rdiv x0 k)) = false <-> ((0 < k /\ 0 <= x0) \/ (k < 0 /\ x0 <= 0) \/ (k = 0 /\ 0 < x0)).
Proof.
  unfold rdiv. destruct (Req_EM_T k 0) as [->|K].
  - unfold inf_of. destruct (total_order_T x0 0) as [[H|H]|H].
    + rewrite sgn_neg by auto. simpl. split; [discriminate|lra].
    + subst. rewrite sgn_0. simpl. split; [discriminate|lra].
    + rewrite sgn_pos by auto. simpl. split; auto.
  - pose proof (quot_sign x0 k K) as Q. simpl. destruct (total_order_T (x0/k) 0) as [[H|H]|H].
    + rewrite sgn_neg by auto. simpl. split; [discriminate|]. apply Q in H. lra.
    + rewrite H, sgn_0. simpl. split; auto. intros _. assert (~ x0/k < 0) by lra. rewrite Q in H0.
      destruct (Rtotal_order k 0) as [L|[L|L]]; lra.
    + rewrite sgn_pos by auto. simpl. split; auto. intros _. assert (~ x0/k < 0) by lra. rewrite Q in H0.
      destruct (Rtotal_order k 0) as [L|[L|L]]; lra.
Qed.

(** d1 and d2 are numbers, possibly infinite, exactly in the domain *)
Lemma bsd1d2_domain k t x0 r q sigma : bs_domain k t x0 ->
  exists d1 d2, bsd1d2 k t x0 r q sigma = Ok (d1, d2) /\ is_nan d1 = false /\ is_nan d2 = false.
Proof.
  intros [T D]. apply elog_nan in D. unfold bsd1d2, esqrt. destruct (Rlt_dec t 0); [lra|]. simpl emul.
  set (A := eadd (elog (rdiv x0 k)) _). set (b := sigma * sqrt t).
  assert (NA : is_nan A = false) by (unfold A; destruct (elog (rdiv x0 k)); simpl in *; auto; discriminate).
  assert (ND : forall d, is_nan d = false -> is_nan (esub d (Fin b)) = false) by (intros [?| | |]; simpl; auto).
  set (d1 := if ezero (Fin b) then _ else _).
  assert (N1 : is_nan d1 = false).
  { unfold d1. destruct (ezero (Fin b)) eqn:EB.
    - destruct (ezero A) eqn:EA; auto. destruct A as [a| | |]; simpl in *; auto.
      destruct (is_nan (inf_of a)) eqn:E; auto. apply inf_of_nan in E. destruct (Req_EM_T a 0); [discriminate|contradiction].
    - simpl in EB. destruct (Req_EM_T b 0); [discriminate|]. destruct A as [a| | |]; simpl in *; auto.
      + destruct (is_nan (inf_of b)) eqn:E; auto. apply inf_of_nan in E. contradiction.
      + destruct (is_nan (inf_of (- b))) eqn:E; auto. apply inf_of_nan in E. lra. }
  rewrite N1. exists d1, (esub d1 (Fin b)). auto.
Qed.
Lemma bsd1d2_fails k t x0 r q sigma : ~ bs_domain k t x0 -> bsd1d2 k t x0 r q sigma = Err AssertionError.
Proof.
  intro ND. unfold bsd1d2, esqrt. destruct (Rlt_dec t 0).
  - simpl. reflexivity.
  - assert (EN : elog (rdiv x0 k) = NaN).
    { destruct (is_nan (elog (rdiv x0 k))) eqn:E.
      - destruct (elog (rdiv x0 k)); auto; discriminate.
      - exfalso. apply ND. apply elog_nan in E. split; auto. lra. }
    rewrite EN. simpl. destruct (Req_EM_T _ _); reflexivity.
Qed.

Section C53.
Variable Phi : R -> R.
Lemma ncdf_num d : is_nan d = false -> exists c, num (ncdf Phi d) = Ok c.
Proof. destruct d; simpl; eauto; discriminate. Qed.
Lemma ncdf_sym d c : symmetric_cdf Phi -> num (ncdf Phi d) = Ok c -> num (ncdf Phi (eneg d)) = Ok (1 - c).
Proof.
  intros S. destruct d; simpl; intro H; try discriminate; injection H as <-; [rewrite S; auto| |]; f_equal; ring.
Qed.

Theorem C53_parity k t x0 r q sigma : symmetric_cdf Phi -> bs_domain k t x0 ->
  exists c p dc dp, bscall Phi k t x0 r q sigma = Ok c /\ bsput Phi k t x0 r q sigma = Ok p /\
    bscall_delta Phi k t x0 r q sigma = Ok dc /\ bsput_delta Phi k t x0 r q sigma = Ok dp /\
    c - p = x0 * exp (-q*t) - k * exp (-r*t) /\ dc - dp = exp (-q*t).
Proof.
  intros S D. destruct (bsd1d2_domain k t x0 r q sigma D) as (d1 & d2 & E & N1 & N2).
  destruct (ncdf_num d1 N1) as (c1 & E1), (ncdf_num d2 N2) as (c2 & E2).
  pose proof (ncdf_sym d1 c1 S E1) as E3. pose proof (ncdf_sym d2 c2 S E2) as E4.
  unfold bscall, bsput, bscall_delta, bsput_delta. rewrite E. cbn [rbind]. rewrite E1, E2, E3, E4. cbn [rbind].
  do 4 eexists. repeat split; try reflexivity; ring.
Qed.
(** for other values the functions raise an exception *)
Theorem C53_domain k t x0 r q sigma : ~ bs_domain k t x0 ->
  bscall Phi k t x0 r q sigma = Err AssertionError /\ bsput Phi k t x0 r q sigma = Err AssertionError /\
  bscall_delta Phi k t x0 r q sigma = Err AssertionError /\ bsput_delta Phi k t x0 r q sigma = Err AssertionError.
Proof.
  intro ND. unfold bscall, bsput, bscall_delta, bsput_delta. rewrite bsd1d2_fails by auto. simpl. auto.
Qed.

(** *** C54 *)
Lemma no_vol_sign k t x0 r q : 0 < k -> 0 < x0 -> let A := ln (x0/k) + (r - q) * t in
  (0 < A -> k * exp (-r*t) < x0 * exp (-q*t)) /\ (A < 0 -> x0 * exp (-q*t) < k * exp (-r*t)) /\
  (A = 0 -> x0 * exp (-q*t) = k * exp (-r*t)).
Proof.
  intros K X A.
  assert (EA : forall y, exp y * (k * exp (-r*t)) = exp (y + ln k + -r*t)).
  { intro y. rewrite !exp_plus, exp_ln by auto. ring. }
  assert (E1 : x0 * exp (-q*t) = exp (A + ln k + -r*t)).
  { unfold A. rewrite ln_div by auto. replace (ln x0 - ln k + (r - q) * t + ln k + -r*t) with (ln x0 + -q*t) by ring.
    rewrite exp_plus, exp_ln by auto. reflexivity. }
  assert (E2 : k * exp (-r*t) = exp (0 + ln k + -r*t)) by (rewrite <- EA, exp_0; ring).
  rewrite E1, E2. split; [|split]; intro H; [apply exp_increasing; lra|apply exp_increasing; lra|rewrite H; auto].
Qed.
Theorem C54_no_volatility k t x0 r q sigma : symmetric_cdf Phi -> 0 <= t -> 0 <= k -> 0 <= x0 -> 0 < k + x0 -> t = 0 \/ sigma = 0 ->
  let payoff := x0 * exp (-q*t) - k * exp (-r*t) in
  bscall Phi k t x0 r q sigma = Ok (Rmax payoff 0) /\ bsput Phi k t x0 r q sigma = Ok (Rmax (- payoff) 0).
Proof.
  intros S T K X KX Z payoff.
  assert (D : bs_domain k t x0). { split; auto. destruct (Req_dec k 0); [right; right; lra|left; lra]. }
  assert (G : exists d c, bsd1d2 k t x0 r q sigma = Ok (d, d) /\ num (ncdf Phi d) = Ok c /\
     (0 < payoff -> c = 1) /\ (payoff < 0 -> c = 0)).
  { unfold bsd1d2, esqrt. destruct (Rlt_dec t 0); [lra|]. simpl emul.
    assert (EB : sigma * sqrt t = 0) by (destruct Z as [->| ->]; [rewrite sqrt_0|]; ring).
    assert (ES : sigma^2 * t = 0) by (destruct Z as [->| ->]; ring). rewrite EB.
    replace ((r - q + 0.5 * sigma^2) * t) with ((r - q) * t) by (replace ((r - q + 0.5 * sigma^2) * t) with ((r-q)*t + 0.5 * (sigma^2*t)) by ring; rewrite ES; ring).
    assert (EZ : ezero (Fin 0) = true) by (simpl; destruct (Req_EM_T 0 0); auto; contradiction).
    rewrite EZ. destruct (Req_dec k 0) as [->|K0]; [|destruct (Req_dec x0 0) as [->|X0]].
    - assert (E : elog (rdiv x0 0) = PInf).
      { unfold rdiv. destruct (Req_EM_T 0 0); [|contradiction]. unfold inf_of. rewrite sgn_pos by lra. reflexivity. }
      rewrite E. simpl. exists PInf, 1. split; [reflexivity|]. split; [reflexivity|]. split; auto. intro H. exfalso.
      unfold payoff in H. rewrite Rmult_0_l, Rminus_0_r in H. assert (0 < x0 * exp (-q*t)) by (apply Rmult_lt_0_compat; [lra|apply exp_pos]). lra.
    - assert (E : elog (rdiv 0 k) = MInf).
      { unfold rdiv. destruct (Req_EM_T k 0); [contradiction|]. simpl. unfold Rdiv. rewrite Rmult_0_l, sgn_0. reflexivity. }
      rewrite E. simpl. exists MInf, 0. split; [reflexivity|]. split; [reflexivity|]. split; auto. intro H. exfalso.
      unfold payoff in H. rewrite Rmult_0_l in H. assert (0 < k * exp (-r*t)) by (apply Rmult_lt_0_compat; [lra|apply exp_pos]). lra.
    - rewrite rdiv_pos by lra. cbn [eadd ezero]. destruct (no_vol_sign k t x0 r q) as (L1 & L2 & L3); [lra|lra|].
      set (A := ln (x0/k) + (r - q) * t) in *. destruct (Req_EM_T A 0) as [EA|NA].
      + cbn [is_nan esub eneg eadd]. rewrite Ropp_0, Rplus_0_r. exists (Fin 0), (Phi 0).
        split; [reflexivity|]. split; [reflexivity|]. specialize (L3 EA). unfold payoff. split; lra.
      + cbn [einf]. unfold inf_of. destruct (total_order_T A 0) as [[H|H]|H].
        * rewrite sgn_neg by auto. exists MInf, 0. split; [reflexivity|]. split; [reflexivity|]. specialize (L2 H). unfold payoff. split; lra.
        * contradiction.
        * rewrite sgn_pos by auto. exists PInf, 1. split; [reflexivity|]. split; [reflexivity|]. specialize (L1 H). unfold payoff. split; lra. }
  destruct G as (d & c & E & E1 & P1 & P2). pose proof (ncdf_sym d c S E1) as E3.
  unfold bscall, bsput. rewrite E. cbn [rbind]. rewrite E1, E3. cbn [rbind].
  destruct (total_order_T payoff 0) as [[H|H]|H].
  - rewrite (P2 H). rewrite Rmax_right, Rmax_left by lra. unfold payoff. split; f_equal; ring.
  - rewrite Rmax_right, Rmax_right by lra. unfold payoff in H. assert (H' : x0 * exp (-q*t) = k * exp (-r*t)) by lra. rewrite H'. split; f_equal; ring.
  - rewrite (P1 H). rewrite Rmax_left, Rmax_right by lra. unfold payoff. split; f_equal; ring.
Qed.
End C53.
Print Assumptions C53_parity.
Print Assumptions C53_domain.
Print Assumptions C54_no_volatility.

(** A cdf as assumed above: the integral of the normal density *)
Definition Phi0 (x : R) : R := 1/2 + RInt (fun z => / sqrt (2*PI) * exp (- z^2/2)) 0 x.
Lemma Phi0_normal : normal_cdf Phi0.
Proof.
  set (f := fun z => / sqrt (2*PI) * exp (- z^2/2)).
  assert (Cf : forall z, continuous f z) by (intro z; apply (ex_derive_continuous f); unfold f; auto_derive; auto).
  assert (If : forall a b, ex_RInt f a b) by (intros a b; apply (ex_RInt_continuous (V := R_CompleteNormedModule)); intros; apply Cf).
  assert (Df : forall x, is_derive (RInt f 0) x (f x)).
  { intro x. apply (is_derive_RInt f (RInt f 0) 0 x); [|apply Cf].
    exists (mkposreal 1 Rlt_0_1). intros y _. apply (RInt_correct (V := R_CompleteNormedModule)), If. }
  split.
  - intro x. unfold Phi0. fold f.
    assert (E : RInt f 0 (-x) = - RInt f 0 x).
    { pose proof (RInt_comp_lin (V := R_CompleteNormedModule) f (-1) 0 0 x (If _ _)) as CL.
      replace (-1 * 0 + 0) with 0 in CL by ring. replace (-1 * x + 0) with (- x) in CL by ring. rewrite <- CL.
      etransitivity; [|exact (RInt_opp (V := R_CompleteNormedModule) f 0 x (If _ _))]. apply RInt_ext. intros y _.
      unfold f, scal, opp. simpl. unfold mult. simpl. replace ((-1 * y + 0) * ((-1 * y + 0) * 1)) with (y * (y*1)) by ring.
      match goal with |- @eq _ ?a ?b => change (@eq R a b) end. ring. }
    rewrite E. field.
  - exists (/ sqrt (2*PI)). intro x. unfold Phi0. fold f. fold (f x).
    replace (f x) with (0 + f x) by ring. apply (is_derive_plus (fun _ => 1/2) (RInt f 0)); [auto_derive; auto|apply Df].
Qed.

(** *** C60 *)
Section C60.
Variables k r q sigma : R.
Hypothesis Hk : 0 < k.
Hypothesis Hs : sigma <> 0.
Let d1 (t x : R) := (ln (x/k) + (r - q + 0.5 * sigma^2) * t) / (sigma * sqrt t).
Let d2 t x := d1 t x - sigma * sqrt t.
Lemma bsd1d2_regular t x : 0 < t -> 0 < x -> bsd1d2 k t x r q sigma = Ok (Fin (d1 t x), Fin (d2 t x)).
Proof using Hk Hs.
  intros T X. pose proof (sqrt_lt_R0 _ T) as Q. unfold bsd1d2, esqrt. destruct (Rlt_dec t 0); [lra|]. simpl emul. rewrite rdiv_pos by auto.
  assert (Z : sigma * sqrt t <> 0) by (apply Rmult_integral_contrapositive; split; auto; lra).
  cbn [eadd ezero]. destruct (Req_EM_T (sigma * sqrt t) 0); [contradiction|]. reflexivity.
Qed.

Variable Phi : R -> R.
Variable c : R.
Hypothesis HPhi : forall x, is_derive Phi x (c * exp (- x^2/2)).
Let n x := c * exp (- x^2/2).
Lemma density_identity t x : 0 < t -> 0 < x -> x * exp (-q*t) * n (d1 t x) = k * exp (-r*t) * n (d2 t x).
Proof using Hk Hs.
  intros T X. unfold n. pose proof (sqrt_lt_R0 _ T) as Q.
  assert (E : - d2 t x ^2/2 = - d1 t x ^2/2 + ln x + - ln k + (r - q) * t).
  { unfold d2. assert (B : d1 t x * (sigma * sqrt t) = ln (x/k) + (r - q + 0.5 * sigma^2) * t) by (unfold d1; field; split; auto; lra).
    rewrite ln_div in B by auto. replace (- (d1 t x - sigma * sqrt t)^2/2) with (- d1 t x^2/2 + d1 t x * (sigma * sqrt t) - sigma^2*(sqrt t * sqrt t)/2) by field.
    rewrite B, sqrt_sqrt by lra. lra. }
  rewrite E, !exp_plus, exp_ln, exp_Ropp, exp_ln by auto.
  replace (-q*t) with ((r-q)*t + -r*t) by ring. rewrite exp_plus. field. lra.
Qed.
Lemma d1_x t x : 0 < t -> 0 < x -> is_derive (d1 t) x (/ (x * (sigma * sqrt t))).
Proof using Hk Hs.
  intros T X. pose proof (sqrt_lt_R0 _ T) as Q. unfold d1. auto_derive.
  - apply Rdiv_lt_0_compat; auto.
  - field. repeat split; auto; lra.
Qed.
Lemma d2_x t x : 0 < t -> 0 < x -> is_derive (d2 t) x (/ (x * (sigma * sqrt t))).
Proof using Hk Hs.
  intros T X. unfold d2. replace (/ (x * (sigma * sqrt t))) with (/ (x * (sigma * sqrt t)) - 0) by ring.
  apply (is_derive_minus (d1 t) (fun _ => sigma * sqrt t)); [apply d1_x; auto|auto_derive; auto].
Qed.
Lemma d1_t t x : 0 < t -> 0 < x -> exists D, is_derive (fun t => d1 t x) t D /\ is_derive (fun t => d2 t x) t (D - sigma/(2 * sqrt t)).
Proof using Hk Hs.
  intros T X. pose proof (sqrt_lt_R0 _ T) as Q. assert (sigma * sqrt t <> 0) by (apply Rmult_integral_contrapositive; split; auto; lra).
  assert (E : ex_derive (fun t => d1 t x) t) by (unfold d1; auto_derive; auto).
  destruct E as [D HD]. exists D. split; auto. apply (is_derive_minus (fun t => d1 t x) (fun t => sigma * sqrt t)); auto.
  auto_derive; auto. field. lra.
Qed.
Lemma Phi_comp f x D : is_derive f x D -> is_derive (fun x => Phi (f x)) x (D * n (f x)).
Proof using HPhi. intro H. apply (is_derive_comp Phi f x); auto. apply HPhi. Qed.

Let call t x := x * exp (-q*t) * Phi (d1 t x) - k * exp (-r*t) * Phi (d2 t x).
Let delta t x := exp (-q*t) * Phi (d1 t x).
Lemma call_eq t x : 0 < t -> 0 < x -> bscall Phi k t x r q sigma = Ok (call t x) /\ bscall_delta Phi k t x r q sigma = Ok (delta t x).
Proof using Hk Hs. intros T X. unfold bscall, bscall_delta. rewrite bsd1d2_regular by auto. split; reflexivity. Qed.
Lemma put_eq t x : symmetric_cdf Phi -> 0 < t -> 0 < x ->
  bsput Phi k t x r q sigma = Ok (call t x - (x * exp (-q*t) - k * exp (-r*t))) /\ bsput_delta Phi k t x r q sigma = Ok (delta t x - exp (-q*t)).
Proof using Hk Hs.
  intros S T X. unfold bsput, bsput_delta. rewrite bsd1d2_regular by auto. cbn [rbind num ncdf eneg]. rewrite !S. unfold call, delta. split; f_equal; ring.
Qed.
Lemma call_x t x : 0 < t -> 0 < x -> is_derive (call t) x (delta t x).
Proof using Hk Hs HPhi.
  intros T X. pose proof (density_identity t x T X) as I. pose proof (sqrt_lt_R0 _ T) as Q.
  pose proof (Phi_comp _ _ _ (d1_x t x T X)) as D1. pose proof (Phi_comp _ _ _ (d2_x t x T X)) as D2.
  unfold call. set (h := / (x * (sigma * sqrt t))) in *.
  assert (E : is_derive (fun x => x * exp (-q*t) * Phi (d1 t x) - k * exp (-r*t) * Phi (d2 t x)) x
     (((1 * exp (-q*t)) * Phi (d1 t x) + (x * exp (-q*t)) * (h * n (d1 t x))) - (k * exp (-r*t)) * (h * n (d2 t x)))).
  { apply (is_derive_minus (fun x => x * exp (-q*t) * Phi (d1 t x)) (fun x => k * exp (-r*t) * Phi (d2 t x))).
    - apply (is_derive_mult (fun x => x * exp (-q*t)) (fun x => Phi (d1 t x))); auto; [|intros; apply Rmult_comm].
      auto_derive; auto.
    - apply is_derive_scal. auto. }
  replace (delta t x) with (1 * exp (-q*t) * Phi (d1 t x) + x * exp (-q*t) * (h * n (d1 t x)) - k * exp (-r*t) * (h * n (d2 t x))); auto.
  unfold delta. replace (k * exp (-r*t) * (h * n (d2 t x))) with (h * (k * exp (-r*t) * n (d2 t x))) by ring. rewrite <- I. ring.
Qed.
Lemma delta_x t x : 0 < t -> 0 < x -> is_derive (delta t) x (exp (-q*t) * (/ (x * (sigma * sqrt t)) * n (d1 t x))).
Proof using Hk Hs HPhi.
  intros T X. unfold delta. apply (is_derive_scal (fun x => Phi (d1 t x))). apply (Phi_comp _ _ _ (d1_x t x T X)).
Qed.
Lemma call_t t x : 0 < t -> 0 < x -> is_derive (fun t => call t x) t
  (sigma^2 * x^2 / 2 * (exp (-q*t) * (/ (x * (sigma * sqrt t)) * n (d1 t x))) + (r - q) * x * delta t x - r * call t x).
Proof using Hk Hs HPhi.
  intros T X. pose proof (density_identity t x T X) as I. pose proof (sqrt_lt_R0 _ T) as Q.
  destruct (d1_t t x T X) as (D & H1 & H2).
  pose proof (Phi_comp (fun t => d1 t x) _ _ H1) as D1. pose proof (Phi_comp (fun t => d2 t x) _ _ H2) as D2. cbv beta in D1, D2.
  assert (E : is_derive (fun t => call t x) t
     (((-q * x * exp (-q*t)) * Phi (d1 t x) + (x * exp (-q*t)) * (D * n (d1 t x))) - ((-r * k * exp (-r*t)) * Phi (d2 t x) + (k * exp (-r*t)) * ((D - sigma/(2*sqrt t)) * n (d2 t x))))).
  { unfold call. apply (is_derive_minus (fun t => x * exp (-q*t) * Phi (d1 t x)) (fun t => k * exp (-r*t) * Phi (d2 t x))).
    - apply (is_derive_mult (fun t => x * exp (-q*t)) (fun t => Phi (d1 t x))); auto; [|intros; apply Rmult_comm]. auto_derive; auto. ring.
    - apply (is_derive_mult (fun t => k * exp (-r*t)) (fun t => Phi (d2 t x))); auto; [|intros; apply Rmult_comm]. auto_derive; auto. ring. }
  match goal with |- is_derive _ _ ?y => match type of E with is_derive _ _ ?z => replace y with z; auto end end.
  transitivity (-q * x * exp (-q*t) * Phi (d1 t x) + x * exp (-q*t) * n (d1 t x) * D + r * k * exp (-r*t) * Phi (d2 t x)
     - k * exp (-r*t) * n (d2 t x) * (D - sigma/(2*sqrt t))); [ring|].
  rewrite <- I. unfold call, delta. field. repeat split; auto; lra.
Qed.
End C60.

(** the deltas are the derivatives of the prices with respect to the price of the security *)
Theorem C60_call_delta Phi k t r q sigma (c : R -> R) : normal_cdf Phi -> 0 < k -> 0 < t -> sigma <> 0 ->
  (forall x, 0 < x -> bscall Phi k t x r q sigma = Ok (c x)) ->
  forall x, 0 < x -> exists d, bscall_delta Phi k t x r q sigma = Ok d /\ is_derive c x d.
Proof.
  intros [_ [n HP]] K T S HC x X. destruct (call_eq k r q sigma K S Phi t x T X) as [_ E]. rewrite E. eexists. split; [reflexivity|].
  eapply is_derive_ext_loc; [|apply (call_x k r q sigma K S Phi n HP t x T X)].
  exists (mkposreal x X). intros y Hy. assert (Y : 0 < y).
  { unfold ball in Hy. simpl in Hy. unfold AbsRing_ball, abs, minus, plus, opp in Hy. simpl in Hy. apply Rabs_def2 in Hy. lra. }
  destruct (call_eq k r q sigma K S Phi t y T Y) as [E2 _]. rewrite HC in E2 by auto. congruence.
Qed.
Theorem C60_put_delta Phi k t r q sigma (p : R -> R) : normal_cdf Phi -> 0 < k -> 0 < t -> sigma <> 0 ->
  (forall x, 0 < x -> bsput Phi k t x r q sigma = Ok (p x)) ->
  forall x, 0 < x -> exists d, bsput_delta Phi k t x r q sigma = Ok d /\ is_derive p x d.
Proof.
  intros [Sy [n HP]] K T S HC x X. destruct (put_eq k r q sigma K S Phi t x Sy T X) as [_ E]. rewrite E. eexists. split; [reflexivity|].
  pose proof (call_x k r q sigma K S Phi n HP t x T X) as DX.
  assert (DF : is_derive (fun x => x * exp (-q*t) - k * exp (-r*t)) x (exp (-q*t))) by (auto_derive; auto; ring).
  eapply is_derive_ext_loc; [|exact (is_derive_minus _ _ _ _ _ DX DF)].
  exists (mkposreal x X). intros y Hy. assert (Y : 0 < y).
  { unfold ball in Hy. simpl in Hy. unfold AbsRing_ball, abs, minus, plus, opp in Hy. simpl in Hy. apply Rabs_def2 in Hy. lra. }
  destruct (put_eq k r q sigma K S Phi t y Sy T Y) as [E2 _]. rewrite HC in E2 by auto. injection E2 as ->. reflexivity.
Qed.
(** the price of a call solves the Black-Scholes equation, in the time to maturity; at t = 0 it is the payoff, see
    [C54_no_volatility] *)
Theorem C60_equation Phi k r q sigma (c : R -> R -> R) : normal_cdf Phi -> 0 < k -> sigma <> 0 ->
  (forall t x, 0 < t -> 0 < x -> bscall Phi k t x r q sigma = Ok (c t x)) ->
  exists ct cx cxx : R -> R -> R, forall t x, 0 < t -> 0 < x ->
    is_derive (fun s => c s x) t (ct t x) /\ is_derive (fun y => c t y) x (cx t x) /\ is_derive (fun y => cx t y) x (cxx t x) /\
    ct t x = sigma^2 * x^2 / 2 * cxx t x + (r - q) * x * cx t x - r * c t x.
Proof.
  intros [_ [n HP]] K S HC.
  pose proof (call_x k r q sigma K S Phi n HP) as DX. pose proof (delta_x k r q sigma K S Phi n HP) as DXX.
  pose proof (call_t k r q sigma K S Phi n HP) as DT. cbv zeta in DX, DXX, DT.
  do 3 eexists. intros t x T X.
  assert (EQ : forall t x, 0 < t -> 0 < x -> c t x = x * exp (-q*t) * Phi ((ln (x/k) + (r - q + 0.5 * sigma^2) * t) / (sigma * sqrt t))
     - k * exp (-r*t) * Phi ((ln (x/k) + (r - q + 0.5 * sigma^2) * t) / (sigma * sqrt t) - sigma * sqrt t)).
  { intros t' x' T' X'. destruct (call_eq k r q sigma K S Phi t' x' T' X') as [E _]. rewrite HC in E by auto. congruence. }
  assert (POS : forall z (Z : 0 < z) y, ball z (mkposreal z Z) y -> 0 < y).
  { intros z Z y Hy. unfold ball in Hy. simpl in Hy. unfold AbsRing_ball, abs, minus, plus, opp in Hy. simpl in Hy. apply Rabs_def2 in Hy. lra. }
  split; [|split; [|split]].
  - eapply is_derive_ext_loc; [|apply (DT t x T X)]. exists (mkposreal t T). intros y Hy. apply POS in Hy. symmetry. apply EQ; auto.
  - eapply is_derive_ext_loc; [|apply (DX t x T X)]. exists (mkposreal x X). intros y Hy. apply POS in Hy. symmetry. apply EQ; auto.
  - apply (DXX t x T X).
  - cbv beta. rewrite (EQ t x T X). reflexivity.
Qed.
Print Assumptions C60_call_delta.
Print Assumptions C60_put_delta.
Print Assumptions C60_equation.

Example C53_ex sigma : exists c p, bscall Phi0 90 2 100 0 0 sigma = Ok c /\ bsput Phi0 90 2 100 0 0 sigma = Ok p /\ c - p = 10.
Proof.
  destruct Phi0_normal as [S _]. destruct (C53_parity Phi0 90 2 100 0 0 sigma S) as (c & p & _ & _ & Ec & Ep & _ & _ & E & _).
  - split; [lra|left; lra].
  - exists c, p. repeat split; auto. rewrite E, Ropp_0, Rmult_0_l, exp_0. ring.
Qed.
Example C53_ex_domain r q sigma : bscall Phi0 90 (-1) 100 r q sigma = Err AssertionError /\ bscall Phi0 0 1 0 r q sigma = Err AssertionError.
Proof. split; apply C53_domain; unfold bs_domain; lra. Qed.
Example C54_ex r q sigma : bscall Phi0 90 0 100 r q sigma = Ok 10 /\ bsput Phi0 90 0 100 r q sigma = Ok 0 /\
  bscall Phi0 110 0 100 r q sigma = Ok 0 /\ bsput Phi0 110 0 100 r q sigma = Ok 10.
Proof.
  destruct Phi0_normal as [S _].
  destruct (C54_no_volatility Phi0 90 0 100 r q sigma S) as [E1 E2]; try lra.
  destruct (C54_no_volatility Phi0 110 0 100 r q sigma S) as [E3 E4]; try lra.
  rewrite E1, E2, E3, E4, !Rmult_0_r, exp_0. repeat split; f_equal; [rewrite Rmax_left|rewrite Rmax_right|rewrite Rmax_right|rewrite Rmax_left]; lra.
Qed.
(** at the money, no rates, one year *)
Example C60_ex : exists d, bscall Phi0 100 1 100 0 0 (1/5) = Ok (100 * (2 * Phi0 (1/10) - 1)) /\
  bscall_delta Phi0 100 1 100 0 0 (1/5) = Ok d /\ d = Phi0 (1/10).
Proof.
  destruct Phi0_normal as [S _].
  unfold bscall, bscall_delta. rewrite bsd1d2_regular by lra.
  replace (100/100) with 1 by field. rewrite ln_1, sqrt_1. cbn [rbind ncdf num]. rewrite Ropp_0, Rmult_0_l, exp_0.
  replace ((0 + (0 - 0 + 0.5 * (1/5)^2) * 1) / (1/5 * 1)) with (1/10) by lra. replace (1/10 - 1/5*1) with (-(1/10)) by lra. rewrite S.
  eexists. split; [f_equal; ring|split; [reflexivity|ring]].
Qed.
