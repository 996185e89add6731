(** Integrals on the positive half line: series of functions, the gamma function. *)
From Coq Require Import Reals Lra Psatz Lia.
From Coquelicot Require Import Coquelicot.
From Verif Require Import S_dist L_complex L_gauss L_gauss2 L_dist S_cir.
Local Open Scope R_scope.

(** *** limits of integrals, by epsilons *)
Definition cont_pos (f : R -> R) : Prop := forall x, 0 < x -> continuous f x.
Lemma cont_int f a b : cont_pos f -> 0 < a -> 0 < b -> ex_RInt f a b.
Proof. intros C A B. apply (ex_RInt_continuous (V := R_CompleteNormedModule)). intros x [X _]. apply C. apply (between_pos a b); auto. Qed.
Lemma half_intro f v : cont_pos f ->
  (forall eps, 0 < eps -> exists d M, 0 < d /\ forall a b, 0 < a -> a < d -> 0 < b -> M < b -> Rabs (RInt f a b - v) < eps) -> half_line f v.
Proof.
  intros C H P [e HP]. destruct (H e (cond_pos e)) as (d & M & D & K).
  exists (fun a => 0 < a /\ a < d) (fun b => 0 < b /\ M < b).
  - exists (mkposreal d D). intros y Y PY. split; auto. unfold ball in Y. simpl in Y. unfold AbsRing_ball, abs, minus, plus, opp in Y. simpl in Y. apply Rabs_def2 in Y. lra.
  - exists (Rmax 0 M). intros y Y. pose proof (Rmax_l 0 M). pose proof (Rmax_r 0 M). lra.
  - intros a b [A1 A2] [B1 B2]. exists (RInt f a b). split; [apply (RInt_correct (V := R_CompleteNormedModule)), cont_int; auto|]. apply HP. apply (K a b); auto.
Qed.
Lemma half_elim f v : half_line f v ->
  forall eps, 0 < eps -> exists d M, 0 < d /\ forall a b, 0 < a -> a < d -> 0 < b -> M < b -> Rabs (RInt f a b - v) < eps.
Proof.
  intros H eps EP. destruct (H (ball v (mkposreal eps EP))) as [Q1 Q2 H1 H2 K]; [exists (mkposreal eps EP); auto|].
  destruct H1 as [d H1]. destruct H2 as [M H2]. exists d, M. split; [apply cond_pos|]. intros a b A1 A2 B1 B2.
  destruct (K a b) as (y & Iy & By).
  - apply H1; auto. unfold ball. simpl. unfold AbsRing_ball, abs, minus, plus, opp. simpl. rewrite Rabs_right; lra.
  - apply H2; auto.
  - cbn [fst snd] in Iy. rewrite (is_RInt_unique (V := R_CompleteNormedModule) _ _ _ _ Iy). exact By.
Qed.
Lemma half_ext f g v : half_line f v -> (forall x, 0 < x -> f x = g x) -> half_line g v.
Proof.
  intros H E. apply (gen_ext f g _ _ v v H); auto; try apply Rbar_locally_filter; try apply right_filter.
  apply pos_prod. intros a b A B x [X _]. apply E. apply (between_pos a b); auto.
Qed.
Lemma half_eq f v w : half_line f v -> v = w -> half_line f w. Proof. intros H <-. exact H. Qed.
Lemma half_scal f v k : half_line f v -> half_line (fun x => k * f x) (k * v).
Proof. intro H. apply (is_RInt_gen_scal (V := R_NormedModule) (Fa := at_right 0) (Fb := Rbar_locally p_infty) f k v). exact H. Qed.
Lemma half_plus f g v w : half_line f v -> half_line g w -> half_line (fun x => f x + g x) (v + w).
Proof. intros H1 H2. apply (is_RInt_gen_plus (V := R_NormedModule) (Fa := at_right 0) (Fb := Rbar_locally p_infty) f g v w); auto. Qed.
Lemma int_pos f a b c d : cont_pos f -> (forall x, 0 < x -> 0 <= f x) -> 0 < a -> a <= c -> c <= d -> d <= b -> RInt f c d <= RInt f a b.
Proof.
  intros C P A AC CD DB.
  assert (I : forall u v, 0 < u -> 0 < v -> ex_RInt f u v) by (intros; apply cont_int; auto).
  assert (N : forall u v, 0 < u -> u <= v -> 0 <= RInt f u v) by (intros; apply RInt_ge_0; [lra|apply I; lra|intros; apply P; lra]).
  rewrite <- (RInt_Chasles f a c b) by (apply I; lra). rewrite <- (RInt_Chasles f c d b) by (apply I; lra).
  unfold plus. simpl. pose proof (N a c A AC). pose proof (N d b ltac:(lra) DB). lra.
Qed.
Lemma int_le_half f v a b : half_line f v -> cont_pos f -> (forall x, 0 < x -> 0 <= f x) -> 0 < a -> a <= b -> RInt f a b <= v.
Proof.
  intros H C P A AB. apply le_epsilon. intros eps EP. destruct (half_elim f v H eps EP) as (d & M & D & K).
  set (a' := Rmin a (d/2)). set (b' := Rmax b (M + 1)).
  assert (0 < a') by (apply Rmin_pos; lra). assert (a' <= a) by apply Rmin_l. assert (a' <= d/2) by apply Rmin_r.
  assert (b <= b') by apply Rmax_l. assert (M + 1 <= b') by apply Rmax_r.
  specialize (K a' b' ltac:(lra) ltac:(lra) ltac:(lra) ltac:(lra)). apply Rabs_def2 in K.
  pose proof (int_pos f a' b' a b C P ltac:(lra) ltac:(lra) AB ltac:(lra)). lra.
Qed.

(** *** series of positive functions *)
Lemma sum_cont (f : nat -> R -> R) N x : (forall n, continuous (f n) x) -> continuous (fun x => sum_n (fun n => f n x) N) x.
Proof.
  intro C. induction N; [apply (continuous_ext (f O)); [intro; rewrite sum_O; reflexivity|apply C]|].
  apply (continuous_ext (fun x => plus (sum_n (fun n => f n x) N) (f (S N) x))); [intro; rewrite sum_Sn; reflexivity|].
  apply (continuous_plus (V := R_NormedModule)); auto.
Qed.
Lemma sum_half (f : nat -> R -> R) J N : (forall n, half_line (f n) (J n)) -> half_line (fun x => sum_n (fun n => f n x) N) (sum_n J N).
Proof.
  intro H. induction N.
  - rewrite sum_O. eapply half_ext; [apply (H O)|]. intros x _. rewrite sum_O. reflexivity.
  - rewrite sum_Sn. eapply half_ext; [apply half_plus; [exact IHN|apply (H (S N))]|]. intros x _. rewrite sum_Sn. reflexivity.
Qed.
Lemma series_ge0 (u : nat -> R) : (forall n, 0 <= u n) -> ex_series u -> 0 <= Series u.
Proof. intros P H. rewrite <- (Rmult_0_l (Series u)), <- Series_scal_l. apply Series_le; auto. intro n. specialize (P n). lra. Qed.
Lemma partial_le (u : nat -> R) s N : (forall n, 0 <= u n) -> is_series u s -> sum_n u N <= s.
Proof.
  intros P H. assert (E : s = sum_n u N + Series (fun k => u (S N + k)%nat)).
  { rewrite <- (is_series_unique _ _ H). rewrite (Series_incr_n u (S N)); [|lia|exists s; exact H]. rewrite <- sum_n_Reals. reflexivity. }
  assert (0 <= Series (fun k => u (S N + k)%nat)).
  { apply series_ge0; [intro; apply P|]. apply (ex_series_incr_n u (S N)). exists s. exact H. }
  lra.
Qed.
Lemma series_half (f : nat -> R -> R) (F : R -> R) (J : nat -> R) (s : R) :
  (forall n, cont_pos (f n)) -> cont_pos F -> (forall n x, 0 < x -> 0 <= f n x) -> (forall x, 0 < x -> is_series (fun n => f n x) (F x)) ->
  (forall a b, 0 < a -> a <= b -> exists M, ex_series M /\ forall n x, a <= x <= b -> f n x <= M n) ->
  (forall n, half_line (f n) (J n)) -> is_series J s -> half_line F s.
Proof.
  intros CF CC P SF W HJ SJ.
  assert (JP : forall n, 0 <= J n).
  { intro n. apply Rle_trans with (RInt (f n) 1 1); [rewrite RInt_point; apply Rle_refl|]. apply int_le_half; auto; try lra. }
  assert (CS : forall N, cont_pos (fun x => sum_n (fun n => f n x) N)) by (intros N x X; apply sum_cont; intro n; apply CF; auto).
  assert (SP : forall N x, 0 < x -> 0 <= sum_n (fun n => f n x) N).
  { intros N x X. induction N; [rewrite sum_O; auto|]. rewrite sum_Sn. unfold plus. simpl. pose proof (P (S N) x X). lra. }
  assert (FP : forall x, 0 < x -> 0 <= F x) by (intros x X; eapply Rle_trans; [apply (SP O x X)|apply partial_le; auto]).
  assert (UP : forall a b, 0 < a -> a <= b -> RInt F a b <= s).
  { intros a b A AB. destruct (W a b A AB) as (M & EM & BM).
    apply le_epsilon. intros eps EP.
    assert (TL : exists N, (b - a) * Series (fun k => M (S N + k)%nat) <= eps).
    { destruct EM as [m EM]. assert (EM' := EM). apply is_series_Reals in EM'.
      assert (E2 : 0 < eps/(b - a + 1)) by (apply Rdiv_lt_0_compat; lra). destruct (EM' _ E2) as [N HN]. exists N. specialize (HN N (Nat.le_refl N)).
      unfold R_dist in HN. rewrite <- (is_series_unique _ _ EM), (Series_incr_n M (S N)) in HN by (try lia; exists m; exact EM).
      simpl pred in HN. set (Tl := Series (fun k => M (S N + k)%nat)) in *. rewrite <- sum_n_Reals in *.
      apply Rabs_def2 in HN. assert (Tl <= eps/(b - a + 1)) by lra.
      assert (0 <= Tl). { apply series_ge0; [|apply (ex_series_incr_n M (S N)); exists m; exact EM].
        intro k. eapply Rle_trans; [apply (P (S N + k)%nat a A)|apply BM; lra]. }
      apply Rle_trans with ((b - a + 1) * Tl); [nra|]. apply Rmult_le_reg_l with (/(b - a + 1)); [apply Rinv_0_lt_compat; lra|].
      rewrite <- Rmult_assoc, Rinv_l, Rmult_1_l by lra. unfold Rdiv in *. lra. }
    destruct TL as [N TL]. set (Tl := Series (fun k => M (S N + k)%nat)) in *.
    assert (B : forall x, a <= x <= b -> F x <= sum_n (fun n => f n x) N + Tl).
    { intros x X. rewrite <- (is_series_unique _ _ (SF x ltac:(lra))), (Series_incr_n (fun n => f n x) (S N)) by (try lia; exists (F x); apply SF; lra).
      simpl pred. rewrite <- sum_n_Reals. apply Rplus_le_compat_l. apply Series_le; [|apply (ex_series_incr_n M (S N)); auto].
      intro k. split; [apply P; lra|apply BM; auto]. }
    assert (RInt F a b <= RInt (fun x => sum_n (fun n => f n x) N + Tl) a b).
    { apply RInt_le; auto; [apply cont_int; auto; lra| |intros x X; apply B; lra].
      apply (ex_RInt_plus (V := R_NormedModule)); [apply cont_int; auto; lra|apply ex_RInt_const]. }
    assert (RInt (fun x => sum_n (fun n => f n x) N + Tl) a b = RInt (fun x => sum_n (fun n => f n x) N) a b + (b - a) * Tl).
    { rewrite (RInt_plus (V := R_CompleteNormedModule)) by (try apply ex_RInt_const; apply cont_int; auto; lra). rewrite RInt_const. reflexivity. }
    assert (RInt (fun x => sum_n (fun n => f n x) N) a b <= sum_n J N) by (apply int_le_half; auto; apply sum_half; auto).
    pose proof (partial_le J s N JP SJ). lra. }
  apply half_intro; auto. intros eps EP.
  apply is_series_Reals in SJ. assert (SJ' := SJ). apply is_series_Reals in SJ'.
  destruct (SJ (eps/2) ltac:(lra)) as [N HN]. specialize (HN N (Nat.le_refl N)). unfold R_dist in HN. rewrite <- sum_n_Reals in HN. apply Rabs_def2 in HN.
  destruct (half_elim _ _ (sum_half f J N HJ) (eps/2) ltac:(lra)) as (d & M & D & K).
  exists (Rmin d 1), (Rmax M 1). split; [apply Rmin_pos; lra|]. intros a b A1 A2 B1 B2.
  pose proof (Rmin_l d 1). pose proof (Rmin_r d 1). pose proof (Rmax_l M 1). pose proof (Rmax_r M 1).
  specialize (K a b A1 ltac:(lra) B1 ltac:(lra)). apply Rabs_def2 in K. specialize (UP a b A1 ltac:(lra)).
  assert (RInt (fun x => sum_n (fun n => f n x) N) a b <= RInt F a b).
  { apply RInt_le; [lra|apply cont_int; auto|apply cont_int; auto|]. intros x X. apply partial_le; [intro; apply P; lra|apply SF; lra]. }
  apply Rabs_def1; lra.
Qed.

(** *** the gamma function *)
Lemma half_ftc f F l0 l1 : (forall x, 0 < x -> is_derive F x (f x)) -> cont_pos f ->
  (forall eps, 0 < eps -> exists d, 0 < d /\ forall x, 0 < x -> x < d -> Rabs (F x - l0) < eps) ->
  (forall eps, 0 < eps -> exists M, forall x, 0 < x -> M < x -> Rabs (F x - l1) < eps) -> half_line f (l1 - l0).
Proof.
  intros D C H0 H1. apply half_intro; auto. intros eps EP. destruct (H0 (eps/2) ltac:(lra)) as (d & DP & K0). destruct (H1 (eps/2) ltac:(lra)) as (M & K1).
  exists d, M. split; auto. intros a b A1 A2 B1 B2.
  assert (I : is_RInt f a b (minus (F b) (F a))).
  { apply (is_RInt_derive (V := R_CompleteNormedModule) F f); intros x [X _]; apply (between_pos a b) in X; auto. }
  rewrite (is_RInt_unique (V := R_CompleteNormedModule) _ _ _ _ I). unfold minus, plus, opp. simpl.
  specialize (K0 a A1 A2). specialize (K1 b B1 B2). replace (F b + - F a - (l1 - l0)) with ((F b - l1) - (F a - l0)) by ring.
  eapply Rle_lt_trans; [apply Rabs_triang|]. rewrite Rabs_Ropp. lra.
Qed.
Lemma rpow_pos x a : 0 < Rpower x a. Proof. apply exp_pos. Qed.
Lemma rpow_small a eps y : 0 < a -> 0 < eps -> 0 < y -> y < exp (ln eps/a) -> Rpower y a < eps.
Proof.
  intros A E Y H. unfold Rpower. rewrite <- (exp_ln eps) at 1 by auto. apply exp_increasing. apply ln_increasing in H; auto. rewrite ln_exp in H.
  apply Rmult_lt_compat_l with (r := a) in H; auto. replace (a*(ln eps/a)) with (ln eps) in H by (field; lra). exact H.
Qed.
Lemma rpow_e a x : 0 < a -> 0 < x -> Rpower x a * exp (- x) = Rpower (x*exp (- (x/a))) a.
Proof.
  intros A X. unfold Rpower. rewrite <- exp_plus. f_equal. rewrite ln_mult, ln_exp by (auto; apply exp_pos). field. lra.
Qed.
Lemma ye y : 0 <= y*exp (- y) -> y*exp (- y) <= 1.
Proof. intros _. rewrite exp_Ropp. apply Rmult_le_reg_r with (exp y); [apply exp_pos|]. rewrite Rmult_assoc, Rinv_l, Rmult_1_r, Rmult_1_l by apply Rgt_not_eq, exp_pos. pose proof (exp_ineq1_le y). lra. Qed.
Lemma ye_small y : 0 < y -> y*exp (- y) <= 4/y.
Proof.
  intro Y. rewrite exp_Ropp. assert (4*exp y >= y*y).
  { replace (exp y) with (exp (y/2)*exp (y/2)) by (rewrite <- exp_plus; f_equal; field). pose proof (exp_ineq1_le (y/2)). nra. }
  apply Rmult_le_reg_r with (y*exp y); [apply Rmult_lt_0_compat; auto; apply exp_pos|].
  replace (y*/exp y*(y*exp y)) with (y*y) by (field; apply Rgt_not_eq, exp_pos). replace (4/y*(y*exp y)) with (4*exp y) by (field; lra). lra.
Qed.
Lemma gx_0 a : 0 < a -> forall eps, 0 < eps -> exists d, 0 < d /\ forall x, 0 < x -> x < d -> Rabs (Rpower x a * exp (- x) - 0) < eps.
Proof.
  intros A eps EP. exists (exp (ln eps/a)). split; [apply exp_pos|]. intros x X XD. rewrite Rminus_0_r.
  pose proof (rpow_pos x a). pose proof (exp_pos (- x)). assert (exp (- x) <= 1) by (rewrite <- exp_0; left; apply exp_increasing; lra).
  pose proof (rpow_small a eps x A EP X XD). rewrite Rabs_right by nra. nra.
Qed.
Lemma gx_inf a : 0 < a -> forall eps, 0 < eps -> exists M, forall x, 0 < x -> M < x -> Rabs (Rpower x a * exp (- x) - 0) < eps.
Proof.
  intros A eps EP. set (e := exp (ln eps/a)). assert (E : 0 < e) by apply exp_pos. exists (4*a*a/e). intros x X XM. rewrite Rminus_0_r.
  pose proof (rpow_pos x a). pose proof (exp_pos (- x)). rewrite Rabs_right by nra. rewrite rpow_e by auto. apply rpow_small; auto.
  - apply Rmult_lt_0_compat; auto. apply exp_pos.
  - fold e. assert (Y : 0 < x/a) by (apply Rdiv_lt_0_compat; auto). pose proof (ye_small (x/a) Y).
    replace (x*exp (- (x/a))) with (a*(x/a*exp (- (x/a)))) by (field; lra). apply Rle_lt_trans with (a*(4/(x/a))); [apply Rmult_le_compat_l; lra|].
    replace (a*(4/(x/a))) with (4*a*a/x) by (field; lra). apply Rmult_lt_reg_r with (x/e); [apply Rdiv_lt_0_compat; auto|].
    replace (4*a*a/x*(x/e)) with (4*a*a/e) by (field; lra). replace (e*(x/e)) with x by (field; lra). auto.
Qed.
Lemma gx_cont a : cont_pos (fun x => Rpower x a * exp (- x)).
Proof. intros x X. apply (ex_derive_continuous (V := R_NormedModule)). unfold Rpower. auto_derive. auto. Qed.
Lemma gx_pos a x : 0 < x -> 0 <= Rpower x a * exp (- x).
Proof. intros _. pose proof (rpow_pos x a). pose proof (exp_pos (- x)). nra. Qed.
Lemma rpow_succ x a : 0 < x -> Rpower x a = x * Rpower x (a - 1).
Proof. intro X. replace a with (1 + (a - 1)) at 1 by ring. rewrite Rpower_plus, Rpower_1; auto. Qed.
Lemma rpow_dx a x : 0 < x -> is_derive (fun x => Rpower x a) x (a * Rpower x (a - 1)).
Proof.
  intro X. unfold Rpower. auto_derive; auto. replace ((a - 1)*ln x) with (a*ln x + - ln x) by ring. rewrite exp_plus, exp_Ropp, exp_ln by auto. field. lra.
Qed.

Section Gamma.
Variable gamma : R -> R.
Hypothesis G : euler_gamma gamma.
Lemma gamma_pos a : 0 < a -> 0 < gamma a.
Proof.
  intro A. set (f := fun x => Rpower x (a - 1) * exp (- x)).
  apply Rlt_le_trans with (RInt f 1 2); [|apply int_le_half; [apply G; auto|apply gx_cont|intros; apply gx_pos; auto|lra|lra]].
  apply RInt_gt_0; [lra| |].
  - intros x X. apply Rmult_lt_0_compat; [apply rpow_pos|apply exp_pos].
  - intros x X. apply gx_cont. lra.
Qed.
Lemma gamma_rec a : 0 < a -> gamma (a + 1) = a * gamma a.
Proof.
  intro A.
  assert (H : half_line (fun x => a*(Rpower x (a - 1) * exp (- x)) + -1*(Rpower x (a + 1 - 1) * exp (- x))) (0 - 0)).
  { apply half_ftc with (F := fun x => Rpower x a * exp (- x)).
    - intros x X. replace (a + 1 - 1) with a by ring.
      apply (deq _ x (a*Rpower x (a - 1)*exp (- x) + Rpower x a*(- exp (- x)))); [|ring].
      apply (is_derive_mult (K := R_AbsRing) (fun x => Rpower x a) (fun x => exp (- x)) x _ _); [apply rpow_dx; auto| |intros; apply Rmult_comm].
      auto_derive; auto. ring.
    - intros x X. apply (continuous_plus (V := R_NormedModule)); apply (continuous_scal_r (V := R_NormedModule)); apply gx_cont; auto.
    - apply gx_0; auto.
    - apply gx_inf; auto. }
  pose proof (half_plus _ _ _ _ (half_scal _ _ a (G a A)) (half_scal _ _ (-1) (G (a + 1) ltac:(lra)))) as H'.
  pose proof (is_RInt_gen_unique (V := R_CompleteNormedModule) _ _ H) as U. pose proof (is_RInt_gen_unique (V := R_CompleteNormedModule) _ _ H') as U'.
  cbv beta in U'. pose proof (eq_trans (eq_sym U) U'). lra.
Qed.
(** with a scale *)
Lemma gamma_scale a r : 0 < a -> 0 < r -> half_line (fun x => Rpower x (a - 1) * exp (- (r*x))) (gamma a/Rpower r a).
Proof.
  intros A P. apply half_intro.
  { intros x X. apply (ex_derive_continuous (V := R_NormedModule)). unfold Rpower. auto_derive. auto. }
  intros eps EP. pose proof (rpow_pos r a) as RP.
  destruct (half_elim _ _ (G a A) (eps*Rpower r a) ltac:(nra)) as (d & M & D & K). exists (d/r), (M/r). split; [apply Rdiv_lt_0_compat; auto|].
  intros u v U1 U2 V1 V2.
  assert (R1 : r*u < d) by (apply Rmult_lt_reg_r with (/r); [apply Rinv_0_lt_compat; auto|]; replace (r*u*/r) with u by (field; lra); exact U2).
  assert (R2 : M < r*v) by (apply Rmult_lt_reg_r with (/r); [apply Rinv_0_lt_compat; auto|]; replace (r*v*/r) with v by (field; lra); exact V2).
  specialize (K (r*u) (r*v) ltac:(nra) R1 ltac:(nra) R2).
  assert (E : RInt (fun x => Rpower x (a - 1) * exp (- (r*x))) u v = RInt (fun x => Rpower x (a - 1) * exp (- x)) (r*u) (r*v) / Rpower r a).
  { pose proof (RInt_comp_lin (V := R_CompleteNormedModule) (fun x => Rpower x (a - 1) * exp (- x)) r 0 u v) as CL.
    rewrite !Rplus_0_r in CL. specialize (CL ltac:(apply cont_int; [apply gx_cont|nra|nra])).
    assert (Q : RInt (fun y => scal r (Rpower (r*y + 0) (a - 1) * exp (- (r*y + 0)))) u v = RInt (fun y => scal (Rpower r a) (Rpower y (a - 1) * exp (- (r*y)))) u v).
    { apply RInt_ext. intros x [X _]. apply Rlt_le, (between_pos u v) in X; auto. rewrite Rplus_0_r. unfold scal. simpl. unfold mult. simpl.
      rewrite (rpow_succ r a) by auto. rewrite <- Rpower_mult_distr by auto. ring. }
    pose proof (eq_trans (eq_sym CL) Q) as E. rewrite (RInt_scal (V := R_CompleteNormedModule)) in E.
    2: { apply cont_int; auto. intros x X. apply (ex_derive_continuous (V := R_NormedModule)). unfold Rpower. auto_derive. auto. }
    unfold scal in E. simpl in E. unfold mult in E. simpl in E.
    apply Rmult_eq_reg_l with (Rpower r a); [|lra]. unfold Rdiv. rewrite (Rmult_comm (RInt _ (r*u) (r*v))), <- Rmult_assoc, Rinv_r, Rmult_1_l by lra. symmetry. exact E. }
  rewrite E. replace (_ - gamma a/Rpower r a) with ((RInt (fun x => Rpower x (a - 1) * exp (- x)) (r*u) (r*v) - gamma a)/Rpower r a) by (field; lra).
  unfold Rdiv. rewrite Rabs_mult, (Rabs_right (/Rpower r a)) by (left; apply Rinv_0_lt_compat; auto).
  apply Rmult_lt_reg_r with (Rpower r a); auto. rewrite Rmult_assoc, Rinv_l by lra. lra.
Qed.
End Gamma.

(** it exists *)
Lemma gx_bound a x : 0 < a -> 0 < x -> Rpower x a * exp (- x) <= Rpower a a.
Proof.
  intros A X. rewrite rpow_e by auto. assert (Y : 0 < x/a) by (apply Rdiv_lt_0_compat; auto).
  pose proof (exp_pos (- (x/a))). pose proof (ye (x/a) ltac:(nra)).
  assert (L : x*exp (- (x/a)) <= a) by (replace (x*exp (- (x/a))) with (a*(x/a*exp (- (x/a)))) by (field; lra); nra).
  apply Rle_Rpower_l; [lra|]. split; auto. nra.
Qed.
Lemma gamma_exists : exists gamma, euler_gamma gamma.
Proof.
  exists (fun a => RInt_gen (fun x => Rpower x (a - 1) * exp (- x)) (at_right 0) (Rbar_locally p_infty)). intros a A.
  unfold half_line. apply (RInt_gen_correct (V := R_CompleteNormedModule)).
  set (f := fun x => Rpower x (a - 1) * exp (- x)). set (E := fun y => exists u v, 0 < u /\ u <= 1 /\ 1 <= v /\ y = RInt f u v).
  assert (CF : cont_pos f) by apply gx_cont. assert (PF : forall x, 0 < x -> 0 <= f x) by (intros; apply gx_pos; auto).
  set (K := Rpower (a + 1) (a + 1)).
  assert (BD : forall u v, 0 < u -> u <= 1 -> 1 <= v -> RInt f u v <= 1/a + K).
  { intros u v U1 U2 V. rewrite <- (RInt_Chasles (V := R_CompleteNormedModule) f u 1 v) by (apply cont_int; auto; lra). unfold plus. simpl. apply Rplus_le_compat.
    - assert (I : is_RInt (fun x => Rpower x (a - 1)) u 1 (minus (Rpower 1 a/a) (Rpower u a/a))).
      { apply (is_RInt_derive (V := R_CompleteNormedModule) (fun x => Rpower x a/a)); intros x [X _]; apply (between_pos u 1) in X; try lra.
        - apply (is_derive_ext (fun x => /a * Rpower x a)); [intro; unfold Rdiv; apply Rmult_comm|].
          eapply deq; [apply (is_derive_scal (fun x => Rpower x a)); apply rpow_dx; auto|]. unfold scal. simpl. unfold mult. simpl. field. lra.
        - apply (ex_derive_continuous (V := R_NormedModule)). unfold Rpower. auto_derive. auto. }
      apply Rle_trans with (RInt (fun x => Rpower x (a - 1)) u 1).
      + apply RInt_le; [lra|apply cont_int; auto; lra|exists (minus (Rpower 1 a/a) (Rpower u a/a)); auto|]. intros x X. unfold f.
        pose proof (rpow_pos x (a - 1)). assert (exp (- x) <= 1) by (rewrite <- exp_0; left; apply exp_increasing; lra). nra.
      + rewrite (is_RInt_unique (V := R_CompleteNormedModule) _ _ _ _ I). unfold minus, plus, opp. simpl. pose proof (rpow_pos u a).
        replace (Rpower 1 a) with 1 by (unfold Rpower; rewrite ln_1, Rmult_0_r, exp_0; auto). assert (0 < Rpower u a/a) by (apply Rdiv_lt_0_compat; auto). lra.
    - assert (I : is_RInt (fun x => K/(x*x)) 1 v (minus (- (K/v)) (- (K/1)))).
      { apply (is_RInt_derive (V := R_CompleteNormedModule) (fun x => - (K/x))); intros x [X _]; apply (between_pos 1 v) in X; try lra.
        - auto_derive; [lra|]. field. lra.
        - apply (ex_derive_continuous (V := R_NormedModule)). auto_derive. nra. }
      apply Rle_trans with (RInt (fun x => K/(x*x)) 1 v).
      + apply RInt_le; [lra|apply cont_int; auto; lra|exists (minus (- (K/v)) (- (K/1))); auto|]. intros x X. unfold f.
        pose proof (gx_bound (a + 1) x ltac:(lra) ltac:(lra)) as Q. fold K in Q.
        rewrite (rpow_succ x (a + 1)), (rpow_succ x (a + 1 - 1)) in Q by lra. replace (a + 1 - 1 - 1) with (a - 1) in Q by ring.
        apply Rmult_le_reg_r with (x*x); [nra|]. unfold Rdiv. rewrite (Rmult_assoc K), Rinv_l, Rmult_1_r by nra. nra.
      + rewrite (is_RInt_unique (V := R_CompleteNormedModule) _ _ _ _ I). unfold minus, plus, opp. simpl.
        assert (0 < K/v) by (apply Rdiv_lt_0_compat; [apply rpow_pos|lra]). lra. }
  destruct (completeness E) as [s [U L]].
  - exists (1/a + K). intros y (u & v & U1 & U2 & V & ->). apply BD; auto.
  - exists (RInt f 1 1), 1, 1. repeat split; lra.
  - exists s. apply half_intro; auto. intros eps EP.
    assert (X : exists u v, 0 < u /\ u <= 1 /\ 1 <= v /\ s - eps < RInt f u v).
    { apply Classical_Prop.NNPP. intro N. assert (s <= s - eps); [|lra]. apply L. intros y (u & v & U1 & U2 & V & ->).
      apply Rnot_lt_le. intro Q. apply N. exists u, v. auto. }
    destruct X as (u & v & U1 & U2 & V & Q). exists u, v. split; auto. intros a' b' A1 A2 B1 B2.
    assert (RInt f u v <= RInt f a' b') by (apply int_pos; auto; lra).
    assert (RInt f a' b' <= s) by (apply U; exists a', b'; repeat split; lra). apply Rabs_def1; lra.
Qed.
