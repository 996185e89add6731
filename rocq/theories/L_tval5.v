(** Lemmas on integrations of linear equations with time dependent coefficients: distance of means and covariances from
    those of the process. *)
From Coq Require Import List Arith Bool ZArith Reals Lra Lia.
From Coquelicot Require Import Coquelicot.
From Verif Require Import Base BaseNum BaseArr L_euler2 M_analytical S_gval L_gval L_gval2 L_gval5 S_tval L_tval.
Import ListNotations.
Local Open Scope R_scope.

Lemma exp_diff a x y : x <= a -> y <= a -> Rabs (exp x - exp y) <= exp a * Rabs (x - y).
Proof.
  intros Hx Hy. destruct (MVT_abs exp exp y x) as (z & E & I).
  - intros z _. apply derivable_pt_lim_exp.
  - rewrite E, abs_exp. apply Rmult_le_compat_r; [apply Rabs_pos|]. apply exp_mono. eapply Rle_trans; [apply I|]. apply Rmax_lub; auto.
Qed.
Section Int.
Variables (f : R -> R).
Hypothesis FC : forall t, continuous f t.
Lemma int_ok a b : ex_RInt f a b.
Proof using FC. apply (ex_RInt_continuous (V := R_CompleteNormedModule)). intros. apply FC. Qed.
Lemma int_chasles a b c : RInt f a b + RInt f b c = RInt f a c.
Proof using FC. apply (RInt_Chasles (V := R_CompleteNormedModule) f a b c); apply int_ok. Qed.
Lemma int_near v d a b : a <= b -> (forall r, a <= r <= b -> Rabs (f r - v) <= d) -> Rabs (RInt f a b - v*(b - a)) <= d*(b - a).
Proof using FC.
  intros Hab H. assert (E : RInt f a b - v*(b - a) = RInt (fun r => f r - v) a b).
  { symmetry. replace (v*(b - a)) with (RInt (fun _ => v) a b) by (rewrite RInt_const; unfold scal; cbn; unfold mult; cbn; ring).
    exact (RInt_minus (V := R_CompleteNormedModule) f (fun _ => v) a b (int_ok a b) (ex_RInt_const (V := R_NormedModule) a b v)). }
  rewrite E. replace (d*(b - a)) with (scal (b - a) d) by (unfold scal; cbn; unfold mult; cbn; ring).
  apply (norm_RInt_le_const (V := R_NormedModule) (fun r => f r - v) a b (RInt (fun r => f r - v) a b) d Hab).
  - intros r Hr. apply H; auto.
  - apply (RInt_correct (V := R_CompleteNormedModule)). apply (ex_RInt_minus (V := R_NormedModule) f (fun _ => v)); [apply int_ok|apply (ex_RInt_const (V := R_NormedModule))].
Qed.
End Int.

Section Grid.
Variables (gr : list R) (h T : R).
Notation t n := (nth n gr 0).
Notation lo := (nth 0 gr 0).
Hypothesis GP : forall n, (S n < List.length gr)%nat -> 0 < gap gr n <= h.
Hypothesis Hh : 0 <= h.
Hypothesis HT : forall n, (n < List.length gr)%nat -> t n <= lo + T.
Let hi := lo + T.
Lemma t_mono n m : (n <= m)%nat -> (m < List.length gr)%nat -> t n <= t m.
Proof using GP. exact (u_mono gr h GP n m). Qed.
Lemma t_in n : (n < List.length gr)%nat -> lo <= t n <= hi.
Proof using GP HT. intro H. split; [apply t_mono; auto; lia|apply HT; auto]. Qed.
Lemma step_in n r : (S n < List.length gr)%nat -> t n <= r <= t (S n) -> lo <= r <= hi /\ Rabs (r - t n) <= h /\ Rabs (t n - r) <= h.
Proof using GP HT.
  intros Hn Hr. assert (A := t_in n ltac:(lia)). assert (B := t_in (S n) Hn). specialize (GP n Hn). unfold gap in GP. split; [lra|]. split; apply Rabs_le; lra.
Qed.

Section One.
Variables (k : R -> R) (K e : R).
Hypothesis KC : forall t, continuous k t.
Hypothesis KV : varies k K e h lo hi.
Hypothesis HK : 0 <= K.
Hypothesis He : 0 <= e.
Let eps := K*K*h + e.
Notation kn := (fun n : nat => k (t n)).

Lemma int_bound a b : lo <= a -> a <= b -> b <= hi -> Rabs (RInt k a b) <= K*(b - a).
Proof using KC KV.
  intros H1 H2 H3. assert (X := int_near k KC 0 K a b H2). rewrite Rmult_0_l, Rminus_0_r in X. apply X. intros r Hr. rewrite Rminus_0_r. apply KV. lra.
Qed.
Lemma decay_bound a b : lo <= a -> a <= b -> b <= hi -> Rabs (decay k a b) <= exp (K*(b - a)).
Proof using KC KV.
  intros H1 H2 H3. unfold decay. rewrite abs_exp. apply exp_mono. assert (X := int_bound a b H1 H2 H3). apply Rabs_le_between in X. lra.
Qed.
Lemma decay_chasles a b c : decay k a b * decay k b c = decay k a c.
Proof using KC. unfold decay. rewrite <- exp_plus, <- (int_chasles k KC a b c). f_equal. ring. Qed.
Lemma decay_step n : (S n < List.length gr)%nat -> Rabs (1 - k (t n) * gap gr n - decay k (t n) (t (S n))) <= exp (K * gap gr n) * (eps * gap gr n).
Proof using GP HT HK Hh KC KV.
  intro Hn. assert (G := GP n Hn). assert (A := t_in n ltac:(lia)). assert (B := t_in (S n) Hn). set (g := gap gr n) in *. set (k0 := k (t n)).
  assert (K0 : Rabs k0 <= K) by (apply KV; auto). assert (ES : t (S n) - t n = g) by reflexivity.
  assert (O := one_step_err k0 g K K0 ltac:(lra)).
  assert (IN : Rabs (RInt k (t n) (t (S n)) - k0*g) <= e*g).
  { rewrite <- ES. apply int_near; [exact KC|lra|]. intros r Hr. destruct (step_in n r Hn Hr) as (R1 & R2 & _). apply KV; auto. }
  assert (D : Rabs (exp (-(k0*g)) - decay k (t n) (t (S n))) <= exp (K*g) * (e*g)).
  { unfold decay. eapply Rle_trans; [apply (exp_diff (K*g))|].
    - apply Rabs_le_between in K0. nra.
    - assert (X := int_bound (t n) (t (S n)) ltac:(lra) ltac:(lra) ltac:(lra)). rewrite ES in X. apply Rabs_le_between in X. lra.
    - apply Rmult_le_compat_l; [left; apply exp_pos|]. eapply Rle_trans; [|exact IN]. right. f_equal. ring. }
  replace (1 - k0*g - decay k (t n) (t (S n))) with ((1 - k0*g - exp (-(k0*g))) + (exp (-(k0*g)) - decay k (t n) (t (S n)))) by ring.
  eapply Rle_trans; [apply Rabs_triang|]. eapply Rle_trans; [apply Rplus_le_compat; [exact O|exact D]|]. rewrite <- Rmult_plus_distr_l. apply Rmult_le_compat_l; [left; apply exp_pos|].
  unfold eps. assert (0 <= K*K) by nra. assert (K*g*(K*g) <= K*K*h*g); [|lra]. replace (K*g*(K*g)) with (K*K*(g*g)) by ring. replace (K*K*h*g) with (K*K*(h*g)) by ring. apply Rmult_le_compat_l; nra.
Qed.
Lemma tprod_close tau d x y f D : 0 <= tau -> 0 < d -> Rabs f <= exp (K*d) -> Rabs (f - D) <= exp (K*d) * (eps*d) -> Rabs D <= exp (K*d) ->
  Rabs x <= exp (K*tau) -> Rabs y <= exp (K*tau) -> Rabs (x - y) <= exp (K*tau) * (eps*tau) ->
  Rabs (f*x) <= exp (K*(tau + d)) /\ Rabs (f*x - D*y) <= exp (K*(tau + d)) * (eps*(tau + d)).
Proof using HK He Hh.
  intros Ht Hd Hf HfD HD Hx Hy Hxy. rewrite Rmult_plus_distr_l, exp_plus. assert (E1 := exp_pos (K*tau)). assert (E2 := exp_pos (K*d)). split.
  - rewrite Rabs_mult, Rmult_comm. apply Rmult_le_compat; auto; apply Rabs_pos.
  - replace (f*x - D*y) with (f*(x - y) + (f - D)*y) by ring. eapply Rle_trans; [apply Rabs_triang|]. rewrite !Rabs_mult.
    apply Rle_trans with (exp (K*d) * (exp (K*tau) * (eps*tau)) + exp (K*d) * (eps*d) * exp (K*tau)).
    + apply Rplus_le_compat; apply Rmult_le_compat; auto; apply Rabs_pos.
    + right. ring.
Qed.
Lemma factor_n n : (S n < List.length gr)%nat -> Rabs (1 - k (t n) * gap gr n) <= exp (K * gap gr n).
Proof using GP HT KV. intro Hn. apply factor_bound; [apply KV, t_in; lia|]. specialize (GP n Hn). lra. Qed.

Lemma teffect_close n : forall N, (n < N)%nat -> (N < List.length gr)%nat ->
  let tau := t N - t (S n) in
  Rabs (teffect gr kn N n) <= exp (K*tau) /\ Rabs (teffect gr kn N n - decay k (t (S n)) (t N)) <= exp (K*tau) * (eps*tau).
Proof using GP HT HK He Hh KC KV.
  induction N as [|N IH]; intros H1 H2 tau; [lia|]. cbn [teffect]. destruct (Nat.eq_dec n N) as [->|NE].
  - replace tau with 0 by (unfold tau; ring). unfold decay. rewrite RInt_point. change (@zero R_NormedModule) with 0. change (@zero R_CompleteNormedModule) with 0. rewrite ?Ropp_0, !Rmult_0_r, ?Ropp_0, exp_0, Rabs_R1, (Rminus_diag_eq 1 1), Rabs_R0 by auto. split; lra.
  - specialize (IH ltac:(lia) ltac:(lia)). cbv zeta in IH. assert (UM := t_mono (S n) N ltac:(lia) ltac:(lia)).
    assert (T1 := t_in (S n) ltac:(lia)). assert (T2 := t_in N ltac:(lia)). assert (T3 := t_in (S N) ltac:(lia)). assert (UN := t_mono N (S N) ltac:(lia) ltac:(lia)).
    assert (P := tprod_close (t N - t (S n)) (gap gr N) (teffect gr kn N n) (decay k (t (S n)) (t N)) (1 - k (t N) * gap gr N) (decay k (t N) (t (S N))) ltac:(lra) (proj1 (GP N H2)) (factor_n N H2) (decay_step N H2)
      (decay_bound (t N) (t (S N)) ltac:(lra) UN ltac:(lra)) (proj1 IH) (decay_bound (t (S n)) (t N) ltac:(lra) ltac:(lra) ltac:(lra)) (proj2 IH)).
    rewrite (Rmult_comm (decay k (t N) (t (S N)))), decay_chasles in P. replace (t N - t (S n) + gap gr N) with tau in P by (unfold tau, gap; ring). exact P.
Qed.
Lemma tdecay_close : forall N, (N < List.length gr)%nat ->
  Rabs (tdecay gr kn N) <= exp (K*(t N - lo)) /\ Rabs (tdecay gr kn N - decay k lo (t N)) <= exp (K*(t N - lo)) * (eps*(t N - lo)).
Proof using GP HT HK He Hh KC KV.
  induction N as [|N IH]; intro HN.
  - cbn [tdecay]. replace (lo - lo) with 0 by ring. unfold decay. rewrite RInt_point. change (@zero R_NormedModule) with 0. change (@zero R_CompleteNormedModule) with 0. rewrite ?Ropp_0, !Rmult_0_r, ?Ropp_0, exp_0, Rabs_R1, (Rminus_diag_eq 1 1), Rabs_R0 by auto. split; lra.
  - cbn [tdecay]. specialize (IH ltac:(lia)). assert (UM := t_mono 0 N ltac:(lia) ltac:(lia)).
    assert (T2 := t_in N ltac:(lia)). assert (T3 := t_in (S N) ltac:(lia)). assert (UN := t_mono N (S N) ltac:(lia) ltac:(lia)).
    assert (P := tprod_close (t N - lo) (gap gr N) (tdecay gr kn N) (decay k lo (t N)) (1 - k (t N) * gap gr N) (decay k (t N) (t (S N))) ltac:(lra) (proj1 (GP N HN)) (factor_n N HN) (decay_step N HN)
      (decay_bound (t N) (t (S N)) ltac:(lra) UN ltac:(lra)) (proj1 IH) (decay_bound lo (t N) ltac:(lra) ltac:(lra) ltac:(lra)) (proj2 IH)).
    rewrite (Rmult_comm (decay k (t N) (t (S N)))), decay_chasles in P. replace (t N - lo + gap gr N) with (t (S N) - lo) in P by (unfold gap; ring). exact P.
Qed.
(** compared with the decay from any time of the step *)
Lemma teffect_near n N r : (n < N)%nat -> (N < List.length gr)%nat -> t n <= r <= t (S n) ->
  Rabs (teffect gr kn N n) <= exp (K*T) /\ Rabs (decay k r (t N)) <= exp (K*T) /\
  Rabs (teffect gr kn N n - decay k r (t N)) <= exp (K*T) * (eps*T + K*h).
Proof using GP HT HK He Hh KC KV.
  intros H1 H2 Hr. destruct (teffect_close n N H1 H2) as [A B]. assert (UM := t_mono (S n) N ltac:(lia) ltac:(lia)). assert (Hn : (S n < List.length gr)%nat) by lia.
  assert (T0 := t_in n ltac:(lia)). assert (T1 := t_in (S n) ltac:(lia)). assert (T2 := t_in N ltac:(lia)). unfold hi in *.
  assert (EM : forall a, 0 <= a <= T -> exp (K*a) <= exp (K*T)) by (intros a Ha; apply exp_mono, Rmult_le_compat_l; lra).
  assert (EP := exp_pos (K*T)). assert (EPS : 0 <= eps) by (unfold eps; assert (0 <= K*K) by nra; nra).
  split; [eapply Rle_trans; [exact A|apply EM; lra]|]. split; [eapply Rle_trans; [apply decay_bound; unfold hi; lra|apply EM; lra]|].
  replace (teffect gr kn N n - decay k r (t N)) with ((teffect gr kn N n - decay k (t (S n)) (t N)) + (decay k (t (S n)) (t N) - decay k r (t N))) by ring.
  eapply Rle_trans; [apply Rabs_triang|]. rewrite Rmult_plus_distr_l. apply Rplus_le_compat.
  - eapply Rle_trans; [exact B|]. apply Rmult_le_compat; [left; apply exp_pos|apply Rmult_le_pos; [auto|lra]|apply EM; lra|]. apply Rmult_le_compat_l; [auto|lra].
  - unfold decay. eapply Rle_trans; [apply (exp_diff (K*T))|].
    + assert (X := int_bound (t (S n)) (t N) ltac:(lra) ltac:(lra) ltac:(unfold hi; lra)). apply Rabs_le_between in X. nra.
    + assert (X := int_bound r (t N) ltac:(lra) ltac:(lra) ltac:(unfold hi; lra)). apply Rabs_le_between in X. nra.
    + apply Rmult_le_compat_l; [lra|]. assert (CH := int_chasles k KC r (t (S n)) (t N)).
      replace (- RInt k (t (S n)) (t N) - - RInt k r (t N)) with (RInt k r (t (S n))) by lra.
      eapply Rle_trans; [apply int_bound; unfold hi; lra|]. apply Rmult_le_compat_l; [auto|]. specialize (GP n Hn). unfold gap in GP. lra.
Qed.
End One.

(** sums along the grid *)
Lemma riemann_close (F : R -> R) (Fn : nat -> R) d N : (forall t, continuous F t) -> (N < List.length gr)%nat ->
  (forall n r, (n < N)%nat -> t n <= r <= t (S n) -> Rabs (Fn n - F r) <= d) ->
  Rabs (rsum (fun n => Fn n * gap gr n) (seq 0 N) - RInt F lo (t N)) <= d*(t N - lo).
Proof using GP.
  intros FC. induction N as [|N IH]; intros HN H.
  - cbn [seq]. unfold rsum. cbn [map fold_right]. rewrite RInt_point. change (@zero R_NormedModule) with 0. rewrite Rminus_diag_eq, Rabs_R0 by auto. lra.
  - rewrite rsum_seq_S, <- (int_chasles F FC lo (t N) (t (S N))). assert (G := GP N HN). 
    assert (X := int_near F FC (Fn N) d (t N) (t (S N)) ltac:(unfold gap in G; lra)).
    assert (Y : forall r, t N <= r <= t (S N) -> Rabs (F r - Fn N) <= d) by (intros r Hr; rewrite Rabs_minus_sym; apply H; auto).
    specialize (X Y). change (t (S N) - t N) with (gap gr N) in X. specialize (IH ltac:(lia) ltac:(intros; apply H; auto)).
    replace (rsum (fun n => Fn n * gap gr n) (seq 0 N) + Fn N * gap gr N - (RInt F lo (t N) + RInt F (t N) (t (S N)))) with
      ((rsum (fun n => Fn n * gap gr n) (seq 0 N) - RInt F lo (t N)) - (RInt F (t N) (t (S N)) - Fn N * gap gr N)) by ring.
    unfold Rminus at 1. eapply Rle_trans; [apply Rabs_triang|]. rewrite Rabs_Ropp. replace (d*(t (S N) - lo)) with (d*(t N - lo) + d * gap gr N) by (unfold gap; ring). lra.
Qed.
Lemma rsum_cut (f : nat -> R) m K : (m <= K)%nat -> (forall n, (m <= n < K)%nat -> f n = 0) -> rsum f (seq 0 K) = rsum f (seq 0 m).
Proof.
  intro H. induction H as [|K H IH]; intro Z; [reflexivity|]. rewrite rsum_seq_S, IH, (Z K) by (intros; try apply Z; lia). ring.
Qed.
Lemma decay_cont (k : R -> R) s : (forall t, continuous k t) -> forall r, continuous (fun r => decay k r s) r.
Proof.
  intros KC r. apply (ex_derive_continuous (K := R_AbsRing) (V := R_NormedModule)). unfold decay. apply (ex_derive_comp exp (fun r => - RInt k r s)); [auto_derive; auto|].
  apply (ex_derive_opp (K := R_AbsRing) (V := R_NormedModule) (fun r => RInt k r s)). eexists. apply (is_derive_RInt' (V := R_NormedModule) k (fun r => RInt k r s) r s).
  - apply filter_forall. intros y. apply (RInt_correct (V := R_CompleteNormedModule)). apply int_ok; auto.
  - apply KC.
Qed.
Lemma grid_T : (0 < List.length gr)%nat -> 0 <= T.
Proof using HT. intro H. specialize (HT 0%nat H). lra. Qed.

(** *** means *)
Lemma tmean_close x0 (k al : R -> R) K A e ea N : (forall t, continuous k t) -> (forall t, continuous al t) ->
  varies k K e h lo hi -> varies al A ea h lo hi -> 0 <= K -> 0 <= A -> 0 <= e -> 0 <= ea -> (N < List.length gr)%nat ->
  Rabs (tmean gr (fun _ => x0) (fun n _ => al (t n)) (fun n _ => k (t n)) [] N - linear_mean x0 k al lo (t N)) <=
  exp (K*T) * ((K*K*h + e)*T) * Rabs x0 + T * (exp (K*T) * ((K*K*h + e)*T + K*h) * A + exp (K*T) * ea).
Proof using GP HT Hh.
  intros KC AC KV AV HK HA He Hea HN. rewrite (tmean_sum gr (fun _ => x0) (fun n _ => al (t n)) (fun n _ => k (t n)) [] N N (le_n N)).
  unfold linear_mean. destruct (tdecay_close k K e KC KV HK He N HN) as [_ D]. assert (TN := t_in N HN). assert (TP := grid_T ltac:(lia)).
  set (te := fun n => teffect gr (fun m => k (t m)) N n) in *. change (teffect gr (fun m => k (t m)) N) with te.
  assert (RS := riemann_close (fun r => decay k r (t N) * al r) (fun n => te n * al (t n)) (exp (K*T) * ((K*K*h + e)*T + K*h) * A + exp (K*T) * ea) N).
  rewrite (rsum_ext _ (fun n => te n * al (t n) * gap gr n)) by (intros; ring).
  set (S1 := rsum _ _) in *. set (I1 := RInt _ _ _) in *. set (d1 := tdecay _ _ _) in *.
  replace (d1*x0 + S1 - (decay k lo (t N) * x0 + I1)) with ((d1 - decay k lo (t N))*x0 + (S1 - I1)) by ring.
  eapply Rle_trans; [apply Rabs_triang|]. apply Rplus_le_compat.
  - rewrite Rabs_mult. apply Rmult_le_compat_r; [apply Rabs_pos|]. eapply Rle_trans; [exact D|]. assert (0 <= K*K*h) by (apply Rmult_le_pos; nra). unfold hi in TN.
    apply Rmult_le_compat; [left; apply exp_pos|apply Rmult_le_pos; lra|apply exp_mono, Rmult_le_compat_l; lra|apply Rmult_le_compat_l; lra].
  - eapply Rle_trans; [apply RS; auto|].
    + intro r. apply (continuous_mult (fun r => decay k r (t N)) al); [apply decay_cont; auto|apply AC].
    + intros n r Hn Hr. destruct (teffect_near k K e KC KV HK He n N r Hn HN Hr) as (E1 & E2 & E3). destruct (step_in n r ltac:(lia) Hr) as (R1 & R2 & R3). fold te in E1, E3.
      replace (te n * al (t n) - decay k r (t N) * al r) with ((te n - decay k r (t N)) * al r + te n * (al (t n) - al r)) by ring.
      eapply Rle_trans; [apply Rabs_triang|]. rewrite !Rabs_mult. apply Rplus_le_compat; apply Rmult_le_compat; auto using Rabs_pos.
      * apply AV; auto.
      * apply AV; auto. apply t_in. lia.
    + assert (0 <= K*K*h) by (apply Rmult_le_pos; nra). assert (EP := exp_pos (K*T)). rewrite Rmult_comm. apply Rmult_le_compat_r; [|unfold hi in TN; lra].
      apply Rplus_le_le_0_compat; repeat apply Rmult_le_pos; try lra. apply Rplus_le_le_0_compat; apply Rmult_le_pos; lra.
Qed.

(** *** covariances *)
Lemma tcov_close (k1 k2 f : R -> R) (fn : nat -> R) K A e ef N M : (forall t, continuous k1 t) -> (forall t, continuous k2 t) -> (forall t, continuous f t) ->
  varies k1 K e h lo hi -> varies k2 K e h lo hi -> 0 <= K -> 0 <= A -> 0 <= e -> 0 <= ef ->
  (forall r, lo <= r <= hi -> Rabs (f r) <= A) -> (forall n r, (S n < List.length gr)%nat -> t n <= r <= t (S n) -> Rabs (fn n - f r) <= ef) ->
  (N < List.length gr)%nat -> (M < List.length gr)%nat ->
  Rabs (rsum (fun n => teffect gr (fun m => k1 (t m)) N n * teffect gr (fun m => k2 (t m)) M n * fn n * gap gr n) (seq 0 (List.length gr - 1)) - linear_cov k1 k2 f lo (t N) (t M)) <=
  T * (2 * (exp (K*T) * exp (K*T)) * ((K*K*h + e)*T + K*h) * A + exp (K*T) * exp (K*T) * ef).
Proof using GP HT Hh.
  intros C1 C2 CF V1 V2 HK HA He Hef FB FV HN HM. set (m := Nat.min N M).
  assert (Em : Rmin (t N) (t M) = t m).
  { unfold m. destruct (Nat.le_ge_cases N M) as [H|H].
    - rewrite Nat.min_l by auto. apply Rmin_left. apply t_mono; auto.
    - rewrite Nat.min_r by auto. apply Rmin_right. apply t_mono; auto. }
  unfold linear_cov. rewrite Em. set (t1 := teffect gr (fun m => k1 (t m)) N). set (t2 := teffect gr (fun m => k2 (t m)) M).
  rewrite (rsum_cut _ m); [|unfold m; lia|intros n Hn; destruct (Nat.le_gt_cases N n);
    [unfold t1; rewrite teffect_after by auto; ring|unfold t2; rewrite (teffect_after gr _ M) by (unfold m in Hn; lia); ring]].
  assert (Hm : (m < List.length gr)%nat) by (unfold m; lia). assert (TM := t_in m Hm). assert (TP := grid_T ltac:(lia)).
  assert (0 <= K*K*h) by (apply Rmult_le_pos; nra). assert (EP := exp_pos (K*T)). set (ex := exp (K*T)) in *. set (q := (K*K*h + e)*T + K*h).
  assert (Hq : 0 <= q) by (unfold q; apply Rplus_le_le_0_compat; apply Rmult_le_pos; lra).
  eapply Rle_trans; [apply (riemann_close (fun r => decay k1 r (t N) * decay k2 r (t M) * f r) (fun n => t1 n * t2 n * fn n) (2*(ex*ex)*q*A + ex*ex*ef) m)|].
  - intro r. apply (continuous_mult (fun r => decay k1 r (t N) * decay k2 r (t M)) f); [|apply CF].
    apply (continuous_mult (fun r => decay k1 r (t N)) (fun r => decay k2 r (t M))); apply decay_cont; auto.
  - exact Hm.
  - intros n r Hn Hr. assert (HnN : (n < N)%nat) by (unfold m in Hn; lia). assert (HnM : (n < M)%nat) by (unfold m in Hn; lia).
    destruct (teffect_near k1 K e C1 V1 HK He n N r HnN HN Hr) as (A1 & A2 & A3). destruct (teffect_near k2 K e C2 V2 HK He n M r HnM HM Hr) as (B1 & B2 & B3).
    fold t1 in A1, A3. fold t2 in B1, B3. fold ex in A1, A2, A3, B1, B2, B3. fold q in A3, B3.
    destruct (step_in n r ltac:(lia) Hr) as (R1 & R2 & R3). specialize (FV n r ltac:(lia) Hr). specialize (FB r R1).
    set (d1 := decay k1 r (t N)) in *. set (d2 := decay k2 r (t M)) in *.
    replace (t1 n * t2 n * fn n - d1 * d2 * f r) with (((t1 n - d1) * t2 n + d1 * (t2 n - d2)) * f r + t1 n * t2 n * (fn n - f r)) by ring.
    eapply Rle_trans; [apply Rabs_triang|]. rewrite !Rabs_mult. apply Rplus_le_compat.
    + apply Rmult_le_compat; [apply Rabs_pos|apply Rabs_pos| |exact FB]. eapply Rle_trans; [apply Rabs_triang|]. rewrite !Rabs_mult.
      apply Rle_trans with (ex*q*ex + ex*(ex*q)); [|right; ring]. apply Rplus_le_compat; apply Rmult_le_compat; auto using Rabs_pos.
    + apply Rmult_le_compat; auto using Rabs_pos. 
      * apply Rmult_le_pos; apply Rabs_pos.
      * apply Rmult_le_compat; auto using Rabs_pos.
  - rewrite Rmult_comm. assert (0 <= ex*ex) by nra. apply Rmult_le_compat_r; [|unfold hi in TM; lra]. apply Rplus_le_le_0_compat; repeat apply Rmult_le_pos; lra.
Qed.
End Grid.
