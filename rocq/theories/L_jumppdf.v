(** Densities of a diffusion with jumps. *)
From Coq Require Import Reals Lra Psatz Lia.
From Coquelicot Require Import Coquelicot.
From Verif Require Import Base M_analytical M_rv S_dist S_pdf S_analytical S_rv L_complex L_rv L_gauss L_gauss2 L_dist L_gamma L_cir L_line L_fourier L_mix L_expconv P_chf P_rv.
Local Open Scope R_scope.

(** *** one jump more: double exponential jumps *)
Definition double_next (a b pa : R) (f : R -> R) : R -> R := fun x => pa*exp_next a f x + (1 - pa)*exp_next_opp b f x.
Lemma double_step (f : R -> R) (B a b pa : R) : 0 < a -> 0 < b -> 0 <= pa <= 1 -> cont_line f -> (forall x, 0 <= f x) -> (forall x, f x <= B) -> line f 1 ->
  step_ok f B (double_jump a b pa) (double_exp_chf a b pa) (double_next a b pa f).
Proof.
  intros A0 B0 P Cf Pf Bf Lf. destruct (exp_step f B a A0 Cf Pf Bf Lf) as (C1 & B1 & L1 & M1 & F1).
  destruct (exp_step_opp f B b B0 Cf Pf Bf Lf) as (C2 & B2 & L2 & M2 & F2). unfold double_next.
  set (g1 := exp_next a f) in *. set (g2 := exp_next_opp b f) in *. split; [|split; [|split; [|split]]].
  - intro x. apply (continuous_plus (V := R_NormedModule) (fun x => pa*g1 x) (fun x => (1 - pa)*g2 x)); apply cont_mult; auto; apply cont_const.
  - intro x. destruct (B1 x), (B2 x). split; nra.
  - eapply line_eq; [apply line_plus; [apply (line_scal _ _ pa L1)|apply (line_scal _ _ (1 - pa) L2)]|ring].
  - intro x. apply (mean_double_split a b pa (fun j => f (x - j)) (g1 x) (g2 x)); [auto|intros _; apply M1|intros _; apply M2].
  - intros c F u. destruct (F1 c F u) as [FC1 FS1], (F2 c F u) as [FC2 FS2]. split.
    + eapply line_eq; [eapply line_ext; [apply line_plus; [apply (line_scal _ _ pa FC1)|apply (line_scal _ _ (1 - pa) FC2)]|]|].
      * intro x. cbv beta. ring.
      * unfold double_exp_chf. destruct (c u), (exp_chf a u), (exp_chf b (- u)). cbn [fst snd Cmult Cplus RtoC]. ring.
    + eapply line_eq; [eapply line_ext; [apply line_plus; [apply (line_scal _ _ pa FS1)|apply (line_scal _ _ (1 - pa) FS2)]|]|].
      * intro x. cbv beta. ring.
      * unfold double_exp_chf. destruct (c u), (exp_chf a u), (exp_chf b (- u)). cbn [fst snd Cmult Cplus RtoC]. ring.
Qed.

(** *** one jump more: normal jumps *)
Lemma sqrt_S s b : 0 < s -> 0 < sqrt (s*s + b*b) /\ sqrt (s*s + b*b)*sqrt (s*s + b*b) = s*s + b*b.
Proof. intro S. assert (0 < s*s + b*b) by nra. split; [apply sqrt_lt_R0; auto|apply sqrt_sqrt; lra]. Qed.
Lemma normal_step m s a b x : 0 < s -> mean_normal (fun z => npdf m s (x - (a + b*z))) (npdf (m + a) (sqrt (s*s + b*b)) x).
Proof.
  intro S0. destruct (sqrt_S s b S0) as [SP SS]. set (S := sqrt (s*s + b*b)) in *.
  set (d := x - a - m). set (mu := b*d/(S*S)). set (tau := s/S). assert (T0 : 0 < tau) by (apply Rdiv_lt_0_compat; auto).
  change (line (fun z => npdf m s (x - (a + b*z)) * (exp (- (z*z/2))/sqrt (2*PI))) (npdf (m + a) S x)).
  eapply line_eq; [eapply line_ext; [apply (line_scal _ _ (npdf (m + a) S x) (npdf_line mu tau T0))|]|ring].
  intro z. cbv beta. unfold npdf. cbv zeta. pose proof sqrt2pi_1 as SQ. assert (SQ0 : 0 < sqrt (2*PI)) by (apply sqrt_lt_R0; pose proof PI_RGT_0; lra).
  assert (E : exp (- ((x - (a + b*z) - m)/s*((x - (a + b*z) - m)/s)/2)) * exp (- (z*z/2)) =
              exp (- ((x - (m + a))/S*((x - (m + a))/S)/2)) * exp (- ((z - mu)/tau*((z - mu)/tau)/2))).
  { rewrite <- !exp_plus. f_equal. unfold mu, tau.
    replace (x - (a + b*z) - m) with (d - b*z) by (unfold d; ring). replace (x - (m + a)) with d by (unfold d; ring).
    assert (SQ1 : 0 < s*s) by nra. assert (SQ2 : 0 < S*S) by nra.
    apply Rmult_eq_reg_l with (2*(s*s)*(S*S)); [|apply Rgt_not_eq; apply Rmult_lt_0_compat; lra].
    transitivity (- ((d - b*z)^2*(S*S) + z*z*(s*s)*(S*S))); [field; lra|].
    transitivity (- (d*d*(s*s) + (z*(S*S) - b*d)^2)); [|field; lra]. rewrite SS. ring. }
  unfold tau. transitivity (exp (- ((x - (m + a))/S*((x - (m + a))/S)/2)) * exp (- ((z - mu)/(s/S)*((z - mu)/(s/S))/2))/(sqrt (2*PI)*sqrt (2*PI)*s)); [field; repeat split; lra|].
  fold tau. rewrite <- E. field. split; lra.
Qed.
Lemma normal_chf_step m s a b u : 0 < s -> normal_chf (m + a) (sqrt (s*s + b*b)) u = Cmult (normal_chf m s u) (normal_chf a b u).
Proof.
  intro S0. destruct (sqrt_S s b S0) as [_ SS]. unfold normal_chf. rewrite <- cexp_add. f_equal. apply C_eq; cbn [fst snd]; [|match goal with |- ?a = ?b => change (@eq R a b) end; ring].
  replace (sqrt (s*s + b*b)*sqrt (s*s + b*b)*u*u/2) with ((s*s + b*b)*u*u/2) by (rewrite SS; reflexivity). field.
Qed.

(** *** all numbers of jumps *)
Lemma npdf_normal m v x : 0 < v -> npdf m (sqrt v) x = gaussian m v x.
Proof.
  intro V. unfold npdf, gaussian. cbv zeta. assert (SV : 0 < sqrt v) by (apply sqrt_lt_R0; auto). pose proof (sqrt_sqrt v ltac:(lra)) as SS.
  pose proof PI_RGT_0. rewrite (sqrt_mult (2*PI) v) by lra. assert (SQ0 : 0 < sqrt (2*PI)) by (apply sqrt_lt_R0; lra).
  replace ((x - m)/sqrt v*((x - m)/sqrt v)/2) with ((x - m)^2/(2*v)). 2: { rewrite <- SS at 1. field. lra. }
  field. split; lra.
Qed.
Lemma npdf_bound m s x : 0 < s -> npdf m s x <= /s.
Proof.
  intro S. unfold npdf. cbv zeta. set (z := (x - m)/s). assert (I : 0 < /s) by (apply Rinv_0_lt_compat; auto).
  assert (E : exp (- (z*z/2)) <= 1). { rewrite exp_Ropp. pose proof (exp_ineq1_le (z*z/2)). assert (0 <= z*z) by nra. rewrite <- Rinv_1. apply Rinv_le_contravar; lra. }
  pose proof sqrt2pi_1 as Q. pose proof (exp_pos (- (z*z/2))).
  assert (J : /sqrt (2*PI) <= 1) by (rewrite <- Rinv_1; apply Rinv_le_contravar; lra). assert (J0 : 0 < /sqrt (2*PI)) by (apply Rinv_0_lt_compat; lra).
  unfold Rdiv. rewrite <- (Rmult_1_l (/s)) at 2. apply Rmult_le_compat_r; [lra|]. nra.
Qed.
(** *** mixtures, inverted *)
Section Mix.
Variables (B l : R) (f : nat -> R -> R) (c0 J : R -> C) (E : (R -> R) -> R -> Prop).
Hypotheses (L0 : 0 <= l) (Cf : forall n, cont_line (f n)) (Pf : forall n x, 0 <= f n x) (Bf : forall n x, f n x <= B) (Lf : forall n, line (f n) 1)
           (Ef : forall n x, E (fun j => f n (x - j)) (f (S n) x)) (F0 : fourier line (fun x => x) (f O) c0)
           (Ff : forall n c, fourier line (fun x => x) (f n) c -> fourier line (fun x => x) (f (S n)) (fun u => Cmult (c u) (J u))).
Lemma fourier_ext p c c' : (forall u, c u = c' u) -> fourier line (fun x => x) p c -> fourier line (fun x => x) p c'.
Proof. intros H F u. rewrite <- H. apply F. Qed.
Definition mixture (x : R) : R := Series (fun n => poisson_prob l n * f n x).
Lemma mixture_law : jump_mixture E (f O) l mixture /\ cont_density mixture /\ fourier line (fun x => x) mixture (fun u => Cmult (c0 u) (compound_poisson_chf l 1 (J u))).
Proof.
  assert (Fn : forall n, fourier line (fun x => x) (f n) (fun u => Cmult (c0 u) (cpw (J u) n))).
  { induction n.
    - eapply fourier_ext; [|exact F0]. intro u. cbn [cpw]. ring.
    - eapply fourier_ext; [|apply (Ff n), IHn]. intro u. cbn [cpw]. ring. }
  pose proof (mix_exists l B f L0 Pf Bf) as X. unfold mixture.
  assert (SX : forall x, is_series (fun n => poisson_prob l n * f n x) (Series (fun n => poisson_prob l n * f n x))) by (intro; apply Series_correct, X).
  assert (CD : cont_density (fun x => Series (fun n => poisson_prob l n * f n x))).
  { split; [eapply mix_cont; eauto|]. split; [eapply mix_pos; eauto|eapply mix_line; eauto]. }
  split; [|split; [exact CD|eapply mix_fourier; eauto]].
  exists f. split; [reflexivity|]. split; [exact Ef|]. split; [|exact SX]. intro n. split; [apply Cf|]. split; [apply Pf|apply Lf].
Qed.
End Mix.

(** *** Merton *)
Definition mj (m v a b : R) (n : nat) : R -> R := npdf (m + INR n*a) (sqrt (v + INR n*(b*b))).
Lemma fourier_unique p c c' u : fourier line (fun x => x) p c -> fourier line (fun x => x) p c' -> c u = c' u.
Proof. intros F F'. destruct (F u) as [A B], (F' u) as [A' B']. destruct (c u), (c' u). cbn [fst snd] in *. f_equal; eapply line_unique; eauto. Qed.
Lemma merton_mixture m v a b l : 0 < v -> 0 <= l -> let p := mixture l (mj m v a b) in
  jump_mixture (normal_jump a b) (gaussian m v) l p /\ cont_density p /\
  fourier line (fun x => x) p (fun u => Cmult (normal_chf m (sqrt v) u) (compound_poisson_chf l 1 (normal_chf a b u))).
Proof.
  intros V L p.
  assert (VN : forall n, v <= v + INR n*(b*b)) by (intro n; pose proof (pos_INR n); nra).
  assert (SN : forall n, sqrt v <= sqrt (v + INR n*(b*b))) by (intro n; apply sqrt_le_1; specialize (VN n); lra).
  assert (S0 : 0 < sqrt v) by (apply sqrt_lt_R0; auto).
  assert (SP : forall n, 0 < sqrt (v + INR n*(b*b))) by (intro n; specialize (SN n); lra).
  assert (ES : forall n, mj m v a b (S n) = npdf (m + INR n*a + a) (sqrt (sqrt (v + INR n*(b*b)) * sqrt (v + INR n*(b*b)) + b*b))).
  { intro n. unfold mj. rewrite sqrt_sqrt by (specialize (VN n); lra). rewrite S_INR. f_equal; [ring|f_equal; ring]. }
  assert (E0 : forall x, mj m v a b O x = gaussian m v x).
  { intro x. unfold mj. cbn [INR]. rewrite <- npdf_normal by auto. f_equal; [ring|f_equal; ring]. }
  assert (M : jump_mixture (normal_jump a b) (mj m v a b O) l p /\ cont_density p /\
    fourier line (fun x => x) p (fun u => Cmult (normal_chf m (sqrt v) u) (compound_poisson_chf l 1 (normal_chf a b u)))).
  { apply (mixture_law (/sqrt v)); auto.
    - intro n. apply npdf_cont. specialize (SP n). lra.
    - intros n x. left. apply npdf_pos. auto.
    - intros n x. eapply Rle_trans; [apply npdf_bound; auto|]. apply Rinv_le_contravar; auto.
    - intro n. apply npdf_line. auto.
    - intros n x. rewrite ES. apply normal_step. auto.
    - replace (mj m v a b O) with (npdf m (sqrt v)); [apply normal_fourier; auto|]. unfold mj. cbn [INR]. f_equal; [ring|f_equal; ring].
    - intros n c F. rewrite ES. eapply fourier_ext; [|apply normal_fourier, sqrt_S; auto]. intro u. rewrite normal_chf_step by auto. f_equal.
      eapply fourier_unique; [apply normal_fourier; auto|exact F]. }
  destruct M as ((f & F0 & FE & FD & FS) & CD & FM). split; [|auto]. exists f. split; [intro x; rewrite F0; apply E0|auto].
Qed.
(** *** Kou *)
Fixpoint kj (m v a b pa : R) (n : nat) : R -> R := match n with O => npdf m (sqrt v) | S n => double_next a b pa (kj m v a b pa n) end.
Lemma kou_mixture m v a b pa l : 0 < v -> 0 <= l -> 0 < a -> 0 < b -> 0 <= pa <= 1 -> let p := mixture l (kj m v a b pa) in
  jump_mixture (double_jump a b pa) (gaussian m v) l p /\ cont_density p /\
  fourier line (fun x => x) p (fun u => Cmult (normal_chf m (sqrt v) u) (compound_poisson_chf l 1 (double_exp_chf a b pa u))).
Proof.
  intros V L A0 B0 PA p. assert (S0 : 0 < sqrt v) by (apply sqrt_lt_R0; auto).
  assert (G : forall n, cont_line (kj m v a b pa n) /\ (forall x, 0 <= kj m v a b pa n x) /\ (forall x, kj m v a b pa n x <= /sqrt v) /\ line (kj m v a b pa n) 1).
  { induction n as [|n (C & P & Bn & Ln)]; cbn [kj].
    - split; [apply npdf_cont; lra|]. split; [intro; left; apply npdf_pos; auto|]. split; [intro; apply npdf_bound; auto|apply npdf_line; auto].
    - destruct (double_step _ (/sqrt v) a b pa A0 B0 PA C P Bn Ln) as (C' & B' & L' & _). split; [exact C'|]. split; [intro; apply B'|]. split; [intro; apply B'|exact L']. }
  assert (ST : forall n, step_ok (kj m v a b pa n) (/sqrt v) (double_jump a b pa) (double_exp_chf a b pa) (kj m v a b pa (S n))).
  { intro n. destruct (G n) as (C & P & Bn & Ln). cbn [kj]. apply double_step; auto. }
  assert (M : jump_mixture (double_jump a b pa) (kj m v a b pa O) l p /\ cont_density p /\
    fourier line (fun x => x) p (fun u => Cmult (normal_chf m (sqrt v) u) (compound_poisson_chf l 1 (double_exp_chf a b pa u)))).
  { apply (mixture_law (/sqrt v)); auto; try (intro n; apply (G n)).
    - intros n x. apply (ST n).
    - apply normal_fourier; auto.
    - intros n c F. apply (ST n). exact F. }
  destruct M as ((f & F0 & FE & FD & FS) & CD & FM). split; [|auto]. exists f. split; [intro x; rewrite F0; apply npdf_normal; auto|auto].
Qed.
