(** Lemmas on the Euler scheme of the Cox-Ingersoll-Ross process: errors of single steps, for Laplace transforms; errors of
    many steps. *)
From Coq Require Import Reals Lra Psatz Lia Classical.
From Coquelicot Require Import Coquelicot.
From Verif Require Import M_analytical S_rv S_dist L_gauss L_gauss2 L_line L_gop L_cirop L_cirop2 L_cir L_complex L_complex P_cir.
Local Open Scope R_scope.

Lemma exp_lip a b m : - a <= m -> - b <= m -> Rabs (exp (- a) - exp (- b)) <= Rabs (a - b) * exp m.
Proof.
  assert (G : forall a b, - a <= m -> a <= b -> Rabs (exp (- a) - exp (- b)) <= Rabs (a - b) * exp m).
  { clear. intros a b A L. assert (E : exp (- b) = exp (- a)*exp (- (b - a))) by (rewrite <- exp_plus; f_equal; ring). rewrite E.
    assert (X := exp_ineq1_le (- (b - a))). assert (P := exp_pos (- a)). assert (M := exp_le _ _ A). assert (Y : exp (- (b - a)) <= 1) by (rewrite <- exp_0; apply exp_le; lra).
    rewrite Rabs_pos_eq by nra. rewrite (Rabs_left1 (a - b)) by lra. nra. }
  intros A B. destruct (Rle_dec a b); [apply G; auto|]. rewrite (Rabs_minus_sym a), (Rabs_minus_sym (exp (- a))). apply G; auto. lra.
Qed.
Lemma mvt f f' t u : 0 <= t -> 0 <= u -> (forall z, 0 <= z -> is_derive f z (f' z)) -> exists c, t <= c <= t + u /\ f (t + u) - f t = f' c * u.
Proof.
  intros T U D. destruct (MVT_gen f t (t + u) f') as (c & C & E).
  - intros z [A B]. rewrite Rmin_left in A by lra. apply D. lra.
  - intros z [A B]. rewrite Rmin_left in A by lra. apply derivable_continuous_pt. exists (f' z). apply is_derive_Reals. apply D. lra.
  - rewrite Rmin_left, Rmax_right in C by lra. exists c. split; auto. rewrite E. ring.
Qed.
Lemma taylor2 f f' M t u : 0 <= t -> 0 <= u -> 0 <= M -> (forall z, 0 <= z -> is_derive f z (f' z)) -> (forall z v, 0 <= z -> 0 <= v -> Rabs (f' (z + v) - f' z) <= M*v) ->
  Rabs (f (t + u) - f t - f' t * u) <= M*(u*u).
Proof.
  intros T U M0 D L. destruct (mvt f f' t u T U D) as (c & C & E). rewrite E. replace (f' c*u - f' t*u) with ((f' (t + (c - t)) - f' t)*u) by (replace (t + (c - t)) with c by ring; ring).
  rewrite Rabs_mult, (Rabs_pos_eq u) by auto. specialize (L t (c - t) T ltac:(lra)). assert (M*(c - t) <= M*u) by nra. nra.
Qed.

Section Laplace.
Variables theta k xi s : R.
Hypothesis K0 : 0 < k.
Hypothesis T0 : 0 < theta.
Hypothesis XI : xi <> 0.
Hypothesis S0 : 0 <= s.
Notation Q := (L_cirop.Q theta k xi).
Notation ww := (L_cirop.ww xi).
Notation low := (L_cirop.low xi).
Notation weight := (L_cirop.weight xi).
Notation bb := (P_cir.bb k xi s).
Notation bb' := (P_cir.bb' k xi s).
Notation lap := (P_cir.lap theta k xi s).
Definition ax (t : R) : R := (qq theta k xi + 1)*ln (dd k xi s t).
Lemma kt : 0 < k*theta. Proof. nra. Qed.
Lemma bb_bound t : 0 <= t -> 0 <= bb t <= s.
Proof.
  intro T. split; [apply (bb_ge theta k xi kt XI s S0 t T)|]. assert (D := dd_ge theta k xi kt XI s S0 t T). unfold P_cir.bb. apply Rmult_le_reg_r with (dd k xi s t); [lra|].
  unfold Rdiv. rewrite Rmult_assoc, Rinv_l, Rmult_1_r by lra. assert (A : al k t <= 1) by (unfold al; rewrite <- exp_0; apply exp_le; nra). assert (B := al_pos k t). nra.
Qed.
Definition L1 : R := k*s + xi*xi*(s*s)/2.
Definition L2 : R := (k + xi*xi*s)*L1.
Lemma L1_ge : 0 <= L1. Proof. unfold L1. assert (0 <= k*s) by nra. assert (0 <= xi*xi) by nra. assert (0 <= s*s) by nra. nra. Qed.
Lemma L2_ge : 0 <= L2. Proof. unfold L2. assert (A := L1_ge). assert (0 <= xi*xi*s) by (assert (0 <= xi*xi) by nra; nra). nra. Qed.
Lemma bb'_bound t : 0 <= t -> Rabs (bb' t) <= L1.
Proof.
  intro T. destruct (bb_bound t T) as [A B]. unfold P_cir.bb', L1. assert (C : 0 <= k*bb t <= k*s) by nra. assert (D : 0 <= bb t*bb t <= s*s) by nra.
  assert (X : 0 <= xi*xi) by nra. assert (E : 0 <= xi*xi*(bb t*bb t) <= xi*xi*(s*s)) by nra. apply Rabs_le. lra.
Qed.
Lemma bb_lip t u : 0 <= t -> 0 <= u -> Rabs (bb (t + u) - bb t) <= L1*u.
Proof.
  intros T U. destruct (mvt bb bb' t u T U (fun z Z => bb_dt theta k xi kt XI s S0 z Z)) as (c & C & E). rewrite E, Rabs_mult, (Rabs_pos_eq u) by auto.
  apply Rmult_le_compat_r; auto. apply bb'_bound. lra.
Qed.
Lemma bb'_lip t u : 0 <= t -> 0 <= u -> Rabs (bb' (t + u) - bb' t) <= L2*u.
Proof.
  intros T U. unfold P_cir.bb'. set (x := bb (t + u)). set (y := bb t). replace (- k*x - xi*xi*(x*x)/2 - (- k*y - xi*xi*(y*y)/2)) with (- (k + xi*xi*(x + y)/2)*(x - y)) by field.
  rewrite Rabs_mult, Rabs_Ropp. destruct (bb_bound t T) as [A B]. destruct (bb_bound (t + u) ltac:(lra)) as [A' B']. fold x in A', B'. fold y in A, B. assert (L := bb_lip t u T U). fold x y in L.
  assert (X : 0 <= xi*xi) by nra. assert (E : 0 <= xi*xi*(x + y)/2 <= xi*xi*s) by nra. rewrite (Rabs_pos_eq (k + _)) by lra. unfold L2. replace ((k + xi*xi*s)*L1*u) with ((k + xi*xi*s)*(L1*u)) by ring. apply Rmult_le_compat; [lra|apply Rabs_pos|lra|exact L].
Qed.
Lemma ax_dt t : 0 <= t -> is_derive ax t (k*theta*bb t).
Proof.
  intro T. pose proof (dd_ge theta k xi kt XI s S0 t T) as D. unfold ax. eapply deq.
  - apply (is_derive_scal (fun t => ln (dd k xi s t))). apply (dcomp ln (dd k xi s)); [apply (dd_dt theta k xi kt)|]. apply is_derive_Reals. apply derivable_pt_lim_ln. lra.
  - unfold P_cir.bb, qq. field. split; lra.
Qed.
Lemma ax_ge t : 0 <= t -> 0 <= ax t.
Proof.
  intro T. unfold ax. assert (A := q_gt theta k xi kt XI). assert (D := dd_ge theta k xi kt XI s S0 t T). apply Rmult_le_pos; [lra|]. rewrite <- ln_1. destruct D as [D|D]; [left; apply ln_increasing; lra|rewrite <- D; lra].
Qed.
Lemma ax_taylor t u : 0 <= t -> 0 <= u -> Rabs (ax (t + u) - ax t - k*theta*bb t*u) <= k*theta*L1*(u*u).
Proof.
  intros T U. assert (A := L1_ge). assert (KT := kt). apply (taylor2 ax (fun t => k*theta*bb t) (k*theta*L1) t u T U); [nra|apply ax_dt|].
  intros z v Z V. replace (k*theta*bb (z + v) - k*theta*bb z) with (k*theta*(bb (z + v) - bb z)) by ring. rewrite Rabs_mult, (Rabs_pos_eq (k*theta)) by lra. replace (k*theta*L1*v) with (k*theta*(L1*v)) by ring. apply Rmult_le_compat_l; [lra|]. apply bb_lip; auto.
Qed.
Lemma bb_taylor t u : 0 <= t -> 0 <= u -> Rabs (bb (t + u) - bb t - bb' t*u) <= L2*(u*u).
Proof. intros T U. apply (taylor2 bb bb' L2 t u T U L2_ge); [intros z Z; apply (bb_dt theta); auto; apply kt|]. intros. apply bb'_lip; auto. Qed.
Lemma lap_form t x : lap t x = exp (- (ax t) + (- (bb t))*x).
Proof. unfold P_cir.lap. fold (ax t). f_equal. ring. Qed.
Lemma lap_tame t : tame (lap t).
Proof. apply (tame_ext (fun x => exp (- (ax t) + (- (bb t))*x))); [intro; symmetry; apply lap_form|apply tame_exp]. Qed.
Definition h0 : R := /(4*k + 2*s*ww + 1).
Lemma h0_pos : 0 < h0.
Proof. apply Rinv_0_lt_compat. assert (W := ww_pos xi). assert (0 <= s*ww) by nra. lra. Qed.
Lemma h0_le h : 0 < h <= h0 -> 4*(k*h) <= 1 /\ 2*s*(ww*h) <= 1.
Proof.
  intros [A B]. assert (W := ww_pos xi). assert (SW : 0 <= s*ww) by nra. set (D := 4*k + 2*s*ww + 1) in *. assert (DP : 0 < D) by (unfold D; lra).
  assert (C : h*D <= 1). { apply Rle_trans with (h0*D); [apply Rmult_le_compat_r; lra|]. unfold h0. fold D. rewrite Rinv_l; lra. }
  assert (0 <= h*k) by nra. assert (0 <= h*(s*ww)) by nra. unfold D in C. split; nra.
Qed.
Lemma lap_step : exists c, 0 <= c /\ forall h, 0 < h <= h0 -> forall d r x, 0 <= d <= h -> 0 <= r ->
  Rabs (Q d (lap r) x - lap (d + r) x) <= c*h*(d*weight h x).
Proof.
  assert (W := ww_pos xi). assert (P1 := L1_ge). assert (P2 := L2_ge). assert (KT := kt). set (ca := k*theta*L1). assert (CA : 0 <= ca) by (unfold ca; nra).
  set (C := ca + L2 + 2*ww*L1). assert (CP : 0 <= C) by (unfold C; assert (0 <= ww*L1) by nra; lra). exists C. split; [auto|].
  intros h H d r x D R0. assert (H0 : 0 < h) by lra. destruct (h0_le h H) as [HK HW]. destruct (bb_bound r R0) as [B0 B1]. destruct (bb_bound (d + r) ltac:(lra)) as [B0' B1'].
  rewrite (Q_ext _ _ _ _ _ (fun y => exp (- (ax r) + (- (bb r))*y))) by (intro; apply lap_form). rewrite Q_exp by lra. rewrite lap_form.
  set (e1 := ax r + bb r*Aa theta k d x - bb r*bb r*(xi*xi*pos x*d)/2). set (e2 := ax (d + r) + bb (d + r)*x).
  replace (- ax r + - bb r*Aa theta k d x + - bb r*- bb r*(xi*xi*pos x*d)/2) with (- e1) by (unfold e1; field).
  replace (- ax (d + r) + - bb (d + r)*x) with (- e2) by (unfold e2; ring).
  assert (TA := ax_taylor r d R0 ltac:(lra)). assert (TB := bb_taylor r d R0 ltac:(lra)). assert (LB := bb_lip r d R0 ltac:(lra)). rewrite (Rplus_comm r d) in TA, TB, LB.
  assert (A0 := ax_ge r R0). assert (A0' := ax_ge (d + r) ltac:(lra)). assert (L := low_pos xi h x). assert (S1 := sq_ge1 x). assert (DD : d*d <= h*d) by nra. unfold L_cirop.weight. fold ca in TA.
  destruct (pos_cases x) as [[X E]|[X E]].
  - assert (E1 : e1 = ax r + k*theta*bb r*d + (bb r + bb' r*d)*x) by (unfold e1, Aa, P_cir.bb'; rewrite E; field).
    assert (EP : 0 <= e1).
    { rewrite E1. assert (Z : 0 <= bb r + bb' r*d).
      { unfold P_cir.bb'. assert (X2 : 0 <= xi*xi <= ww) by (unfold L_cirop.ww; nra). assert (Y1 : bb r*(xi*xi) <= s*ww) by (apply Rmult_le_compat; lra). assert (Y2 : 0 <= bb r*(xi*xi)) by nra.
        assert (Y3 : bb r*(xi*xi)*d <= s*ww*h) by (apply Rmult_le_compat; lra). assert (Y4 : k*d <= k*h) by nra. replace (bb r + (- k*bb r - xi*xi*(bb r*bb r)/2)*d) with (bb r*(1 - k*d - bb r*(xi*xi)*d/2)) by field. apply Rmult_le_pos; lra. }
      assert (0 <= (bb r + bb' r*d)*x) by nra. assert (0 <= k*theta*bb r*d) by (assert (0 <= k*theta*bb r) by nra; nra). lra. }
    assert (EP2 : 0 <= e2) by (unfold e2; nra).
    eapply Rle_trans; [apply (exp_lip e1 e2 0); lra|]. rewrite exp_0, Rmult_1_r.
    assert (B : Rabs (e1 - e2) <= (ca + L2)*(h*d)*sq x).
    { replace (e1 - e2) with (- ((ax (d + r) - ax r - k*theta*bb r*d) + (bb (d + r) - bb r - bb' r*d)*x)) by (rewrite E1; unfold e2; ring). rewrite Rabs_Ropp.
      eapply Rle_trans; [apply Rabs_triang|]. rewrite Rabs_mult. assert (SA := sq_abs x). assert (XP := Rabs_pos x).
      assert (Z1 : Rabs (bb (d + r) - bb r - bb' r*d)*Rabs x <= L2*(d*d)*sq x) by (apply Rmult_le_compat; auto; apply Rabs_pos).
      assert (Z2 : L2*(d*d)*sq x <= L2*(h*d)*sq x) by (apply Rmult_le_compat_r; [lra|]; apply Rmult_le_compat_l; lra).
      assert (Z3 : ca*(d*d)*1 <= ca*(h*d)*sq x) by (apply Rmult_le_compat; try lra; [apply Rmult_le_pos; nra|apply Rmult_le_compat_l; lra]). lra. }
    eapply Rle_trans; [exact B|]. assert (HD : 0 <= h*d) by nra.
    assert (Z1 : (ca + L2)*(h*d)*sq x <= C*(h*d)*sq x). { apply Rmult_le_compat_r; [lra|]. apply Rmult_le_compat_r; [lra|]. unfold C. assert (0 <= ww*L1) by nra. lra. }
    assert (Z2 : 0 <= C*(h*d)*low h x) by (apply Rmult_le_pos; [nra|lra]). lra.
  - set (y := Rabs x). assert (EY : y = - x) by (unfold y; apply Rabs_left; auto). assert (YP : 0 < y) by lra.
    assert (M1 : - e1 <= s*y). { unfold e1, Aa. rewrite E, EY. assert (0 <= bb r*(k*theta*d)) by (apply Rmult_le_pos; [lra|]; nra). nra. }
    assert (M2 : - e2 <= s*y) by (unfold e2; rewrite EY; nra).
    eapply Rle_trans; [apply (exp_lip e1 e2 (s*y)); auto|].
    assert (B : Rabs (e1 - e2) <= ca*(h*d) + L1*d*y).
    { replace (e1 - e2) with (- ((ax (d + r) - ax r - k*theta*bb r*d) + (bb (d + r) - bb r)*x)) by (unfold e1, e2, Aa; rewrite E; field). rewrite Rabs_Ropp.
      eapply Rle_trans; [apply Rabs_triang|]. rewrite Rabs_mult. fold y. assert (Rabs (bb (d + r) - bb r)*y <= L1*d*y) by (apply Rmult_le_compat_r; lra). assert (ca*(d*d) <= ca*(h*d)) by (apply Rmult_le_compat_l; lra). lra. }
    set (la := lam xi h). assert (LE := lam_eq xi h H0). assert (LP := lam_pos xi h H0). fold la in LE, LP.
    set (p := exp (la*y/2)). assert (LO : low h x = p*p) by (unfold L_cirop.low, p; rewrite <- exp_plus; f_equal; fold la; rewrite EY; field).
    assert (PP : 1 <= p) by (unfold p; assert (Z := exp_ineq1_le (la*y/2)); assert (0 <= la*y) by nra; lra).
    assert (SL : exp (s*y) <= p). { unfold p. apply exp_le. assert (2*s <= la). { assert (WH : 0 < ww*h) by nra. apply Rmult_le_reg_r with (ww*h); [auto|]. rewrite LE. lra. } nra. }
    assert (PY : y <= 2*(ww*h)*p). { assert (Z := exp_ineq1_le (la*y/2)). fold p in Z. assert (WH : 0 < ww*h) by nra. replace y with (2*(ww*h)*(la*y/2)) by (transitivity (la*(ww*h)*y); [field|rewrite LE; ring]). apply Rmult_le_compat_l; lra. }
    assert (EX := exp_pos (s*y)). assert (HD : 0 <= h*d) by nra.
    assert (F : Rabs (e1 - e2)*exp (s*y) <= (ca*(h*d) + L1*d*(2*(ww*h)*p))*p).
    { apply Rmult_le_compat; try lra; [apply Rabs_pos|]. assert (L1*d*y <= L1*d*(2*(ww*h)*p)) by (apply Rmult_le_compat_l; nra). lra. }
    eapply Rle_trans; [exact F|]. rewrite LO.
    assert (Z1 : ca*(h*d)*p <= ca*(h*d)*(p*p)) by (apply Rmult_le_compat_l; nra).
    assert (Z2 : 0 <= C*(h*d)*sq x) by (apply Rmult_le_pos; [nra|lra]). assert (Z3 : 0 <= L2*(h*d)*(p*p)) by (apply Rmult_le_pos; nra).
    unfold C. unfold C in Z2. lra.
Qed.
End Laplace.

(** *** errors of many steps *)
Section Many.
Variables theta k xi : R.
Hypothesis K0 : 0 < k.
Hypothesis T0 : 0 < theta.
Lemma many_steps (v : R -> R -> R) x0 T hm : 0 <= x0 -> 0 <= T -> 0 < hm -> 4*(k*hm) <= 1 -> (forall r, 0 <= r -> tame (v r)) ->
  (exists c, 0 <= c /\ forall h, 0 < h <= hm -> forall d r x, 0 <= d <= h -> 0 <= r -> Rabs (L_cirop.Q theta k xi d (v r) x - v (d + r) x) <= c*h*(d*weight xi h x)) ->
  exists C, 0 <= C /\ forall hs N h, 0 < h <= hm -> (forall n, (n < N)%nat -> 0 <= hs n <= h) -> span hs N 0 <= T ->
    Rabs (itr theta k xi hs N 0 (v 0) x0 - v (span hs N 0) x0) <= C*h.
Proof.
  intros X0 TT HM H4 VT (c & C0 & ST). set (U := T*exp (c1 theta k xi*T)*sq x0 + cst theta k xi*hm + 3*cst theta k xi*T).
  assert (CP := cst_pos theta k xi K0 T0). assert (C1 := c1_pos theta k xi K0 T0). exists (c*U). assert (EP := exp_pos (c1 theta k xi*T)). assert (S1 := sq_ge1 x0).
  assert (UP : 0 <= U). { unfold U. assert (0 <= T*exp (c1 theta k xi*T)) by nra. assert (0 <= T*exp (c1 theta k xi*T)*sq x0) by nra. nra. }
  split; [nra|]. intros hs N h H HS ST0.
  assert (A := itr_close theta k xi K0 T0 hs N (fun n Hn => proj1 (HS n Hn)) h (proj1 H) (fun n Hn => proj2 (HS n Hn)) ltac:(nra) v (c*h) T ltac:(nra)
    (fun r Hr => VT r (proj1 Hr)) (fun d r x D R0 _ => ST h H d r x D R0) N 0%nat x0 ltac:(lia) ST0).
  eapply Rle_trans; [exact A|]. replace (c*U*h) with (c*h*U) by ring. apply Rmult_le_compat_l; [nra|]. unfold upper, U.
  assert (SG := span_ge hs N (fun n Hn => proj1 (HS n Hn)) N 0 ltac:(lia)). set (r := span hs N 0) in *.
  assert (LW : 0 < low xi h x0 <= 1). { split; [apply low_pos|]. unfold low. rewrite <- exp_0. apply exp_le. assert (LP := lam_pos xi h (proj1 H)). nra. }
  assert (Z1 : r*exp (c1 theta k xi*r) <= T*exp (c1 theta k xi*T)). { apply Rmult_le_compat; try lra; [left; apply exp_pos|]. apply exp_le. nra. }
  assert (Z2 : r*exp (c1 theta k xi*r)*sq x0 <= T*exp (c1 theta k xi*T)*sq x0) by (apply Rmult_le_compat_r; lra).
  assert (Z3 : cst theta k xi*h*low xi h x0 <= cst theta k xi*hm*1) by (apply Rmult_le_compat; nra). nra.
Qed.
Lemma hmax_ok : 0 < /(4*k) /\ 4*(k*/(4*k)) <= 1.
Proof. split; [apply Rinv_0_lt_compat; lra|]. right. field. lra. Qed.
Lemma mean_many x0 T : 0 <= x0 -> 0 <= T -> exists C, 0 <= C /\ forall hs N h, 0 < h -> 4*(k*h) <= 1 -> (forall n, (n < N)%nat -> 0 <= hs n <= h) -> span hs N 0 <= T ->
  Rabs (itr theta k xi hs N 0 (fun x => x) x0 - vmean theta k (span hs N 0) x0) <= C*h.
Proof.
  intros X TT. destruct hmax_ok as [A B]. destruct (mean_step theta k xi K0 T0) as (c & C0 & H).
  destruct (many_steps (vmean theta k) x0 T (/(4*k)) X TT A B) as (C & CP & G).
  - intros r _. apply tame_poly.
  - exists c. split; auto. intros h Hh. apply H; [lra|]. apply Rle_trans with (4*(k*/(4*k))); auto. apply Rmult_le_compat_l; [lra|]. apply Rmult_le_compat_l; lra.
  - exists C. split; auto. intros hs N h H0 H4 HS SP. specialize (G hs N h). replace (fun x => x) with (vmean theta k 0).
    + apply G; auto. split; auto. apply Rmult_le_reg_l with (4*k); [lra|]. rewrite Rinv_r; lra.
    + apply FunctionalExtensionality.functional_extensionality. intro x. unfold vmean. rewrite Rmult_0_r, Ropp_0, exp_0. ring.
Qed.
Lemma sq_many x0 T : 0 <= x0 -> 0 <= T -> exists C, 0 <= C /\ forall hs N h, 0 < h -> 4*(k*h) <= 1 -> (forall n, (n < N)%nat -> 0 <= hs n <= h) -> span hs N 0 <= T ->
  Rabs (itr theta k xi hs N 0 (fun x => x*x) x0 - vsq theta k xi (span hs N 0) x0) <= C*h.
Proof.
  intros X TT. destruct hmax_ok as [A B]. destruct (sq_step theta k xi K0 T0) as (c & C0 & H).
  destruct (many_steps (vsq theta k xi) x0 T (/(4*k)) X TT A B) as (C & CP & G).
  - intros r _. apply tame_poly.
  - exists c. split; auto. intros h Hh. apply H; [lra|]. apply Rle_trans with (4*(k*/(4*k))); auto. apply Rmult_le_compat_l; [lra|]. apply Rmult_le_compat_l; lra.
  - exists C. split; auto. intros hs N h H0 H4 HS SP. specialize (G hs N h). replace (fun x => x*x) with (vsq theta k xi 0).
    + apply G; auto. split; auto. apply Rmult_le_reg_l with (4*k); [lra|]. rewrite Rinv_r; lra.
    + apply FunctionalExtensionality.functional_extensionality. intro x. unfold vsq. rewrite Rmult_0_r, Ropp_0, exp_0. cbv zeta. field.
Qed.
Lemma lap_many x0 T s : xi <> 0 -> 0 <= s -> 0 <= x0 -> 0 <= T -> exists C, 0 <= C /\ forall hs N h, 0 < h <= h0 k xi s -> (forall n, (n < N)%nat -> 0 <= hs n <= h) -> span hs N 0 <= T ->
  Rabs (itr theta k xi hs N 0 (fun x => exp (- (s*x))) x0 - lap theta k xi s (span hs N 0) x0) <= C*h.
Proof.
  intros XI S0 X TT. destruct (lap_step theta k xi s K0 T0 XI S0) as (c & C0 & H). assert (HP := h0_pos k xi s K0 S0).
  destruct (many_steps (lap theta k xi s) x0 T (h0 k xi s) X TT HP) as (C & CP & G).
  - apply (h0_le k xi s K0 S0 (h0 k xi s)). lra.
  - intros r _. apply lap_tame; auto.
  - exists c. split; auto.
  - exists C. split; auto. intros hs N h H0 HS SP. specialize (G hs N h). replace (fun x => exp (- (s*x))) with (lap theta k xi s 0).
    + apply G; auto.
    + apply FunctionalExtensionality.functional_extensionality. intro x. apply lap_start.
Qed.
Lemma neg_many x0 : 0 <= x0 -> exists C, 0 <= C /\ forall hs N h, 0 < h -> 4*(k*h) <= 1 -> (forall n, (n < N)%nat -> 0 <= hs n <= h) ->
  itr theta k xi hs N 0 (fun x => Rmax (- x) 0) x0 <= C*h.
Proof.
  intro X. assert (W := ww_pos xi). assert (CP := cst_pos theta k xi K0 T0). exists (L_cirop.ww xi*(1 + 3*cst theta k xi)). split; [nra|]. intros hs N h H0 H4 HS.
  assert (WH : 0 < L_cirop.ww xi*h) by nra.
  assert (TN : tame (fun x => Rmax (- x) 0)) by (apply (tame_ext (fun z => (fun x => Rmax x 0) (0 + (-1)*z))); [intro; f_equal; ring|apply (tame_aff (fun x => Rmax x 0)), tame_max]).
  assert (TL := low_tame xi h). eapply Rle_trans; [apply (itr_le theta k xi K0 T0 hs N (fun n Hn => proj1 (HS n Hn)) _ (fun x => L_cirop.ww xi*h*low xi h x) N 0%nat ltac:(lia) TN (tame_scal _ _ TL))|].
  - intro y. apply neg_low; auto.
  - rewrite (itr_scal theta k xi K0 T0 hs N (fun n Hn => proj1 (HS n Hn)) (L_cirop.ww xi*h) (low xi h) N 0%nat) by (auto; lia).
    assert (A := itr_low theta k xi K0 T0 hs N (fun n Hn => proj1 (HS n Hn)) h H0 (fun n Hn => proj2 (HS n Hn)) H4 N 0%nat x0 ltac:(lia)).
    assert (LW : low xi h x0 <= 1). { unfold low. rewrite <- exp_0. apply exp_le. assert (LP := lam_pos xi h H0). nra. }
    apply Rle_trans with (L_cirop.ww xi*h*(1 + 3*cst theta k xi)); [apply Rmult_le_compat_l; lra|right; ring].
Qed.
(** the limits *)
Lemma vmean_eq r x0 : vmean theta k r x0 = cir_mean x0 theta k xi r.
Proof. unfold vmean, cir_mean. replace (- k*r) with (- (k*r)) by ring. ring. Qed.
Lemma vsq_eq r x0 : vsq theta k xi r x0 = cir_var x0 theta k xi r + cir_mean x0 theta k xi r*cir_mean x0 theta k xi r.
Proof. unfold vsq, cir_var, cir_mean, mm. cbv zeta. replace (- k*r) with (- (k*r)) by ring. field. lra. Qed.
End Many.
