(** Integrals on the line: series of functions, and the inversion of Fourier transforms. *)
From Coq Require Import Reals Lra Psatz Lia.
From Coquelicot Require Import Coquelicot.
From Verif Require Import S_dist L_complex L_gauss L_gauss2 L_dist L_gamma.
Local Open Scope R_scope.

(** *** limits of integrals, by epsilons *)
Definition cont_line (f : R -> R) : Prop := forall x, continuous f x.
Lemma cint f (a b : R) : cont_line f -> ex_RInt f a b.
Proof. intro C. apply (ex_RInt_continuous (V := R_CompleteNormedModule)). intros; apply C. Qed.
Lemma line_intro f v : cont_line f ->
  (forall eps, 0 < eps -> exists M, 0 < M /\ forall a b, a < - M -> M < b -> Rabs (RInt f a b - v) < eps) -> line f v.
Proof.
  intros C H P [e HP]. destruct (H e (cond_pos e)) as (M & D & K).
  exists (fun a => a < - M) (fun b => M < b).
  - exists (- M). auto.
  - exists M. auto.
  - intros a b A B. exists (RInt f a b). split; [apply (RInt_correct (V := R_CompleteNormedModule)), cint; auto|]. apply HP. apply (K a b); auto.
Qed.
Lemma line_elim f v : line f v ->
  forall eps, 0 < eps -> exists M, 0 < M /\ forall a b, a < - M -> M < b -> Rabs (RInt f a b - v) < eps.
Proof.
  intros H eps EP. destruct (H (ball v (mkposreal eps EP))) as [Q1 Q2 H1 H2 K]; [exists (mkposreal eps EP); auto|].
  destruct H1 as [m1 H1]. destruct H2 as [m2 H2]. exists (Rmax 1 (Rmax (- m1) m2)).
  pose proof (Rmax_l 1 (Rmax (- m1) m2)). pose proof (Rmax_r 1 (Rmax (- m1) m2)). pose proof (Rmax_l (- m1) m2). pose proof (Rmax_r (- m1) m2).
  split; [lra|]. intros a b A B. destruct (K a b) as (y & Iy & By); [apply H1; lra|apply H2; lra|].
  cbn [fst snd] in Iy. rewrite (is_RInt_unique (V := R_CompleteNormedModule) _ _ _ _ Iy). exact By.
Qed.
Lemma line_ext f g v : line f v -> (forall x, f x = g x) -> line g v.
Proof.
  intros H E. apply (gen_ext f g _ _ v v H); auto; try apply Rbar_locally_filter.
  apply prod_all; try apply Rbar_locally_filter. intros ab x _. apply E.
Qed.
Lemma line_eq f v w : line f v -> v = w -> line f w. Proof. intros H <-. exact H. Qed.
Lemma line_scal f v k : line f v -> line (fun x => k * f x) (k * v).
Proof. intro H. apply (is_RInt_gen_scal (V := R_NormedModule) (Fa := Rbar_locally m_infty) (Fb := Rbar_locally p_infty) f k v). exact H. Qed.
Lemma line_plus f g v w : line f v -> line g w -> line (fun x => f x + g x) (v + w).
Proof. intros H1 H2. apply (is_RInt_gen_plus (V := R_NormedModule) (Fa := Rbar_locally m_infty) (Fb := Rbar_locally p_infty) f g v w); auto. Qed.
Lemma line_minus f g v w : line f v -> line g w -> line (fun x => f x - g x) (v - w).
Proof.
  intros H1 H2. apply (line_eq _ (v + (-1)*w)); [|ring]. eapply line_ext; [apply line_plus; [exact H1|apply line_scal, H2]|]. intro; cbv beta; ring.
Qed.
Lemma line_unique f v w : line f v -> line f w -> v = w.
Proof.
  intros H1 H2. apply Rminus_diag_uniq. apply cond_eq. intros eps EP.
  destruct (line_elim f v H1 (eps/2) ltac:(lra)) as (M & P & K). destruct (line_elim f w H2 (eps/2) ltac:(lra)) as (M' & P' & K').
  specialize (K (- (M + M' + 1)) (M + M' + 1) ltac:(lra) ltac:(lra)). specialize (K' (- (M + M' + 1)) (M + M' + 1) ltac:(lra) ltac:(lra)).
  apply Rabs_def2 in K. apply Rabs_def2 in K'. apply Rabs_def1; lra.
Qed.
Lemma line_pos f a b c d : cont_line f -> (forall x, 0 <= f x) -> a <= c -> c <= d -> d <= b -> RInt f c d <= RInt f a b.
Proof.
  intros C P AC CD DB.
  assert (N : forall u v, u <= v -> 0 <= RInt f u v) by (intros; apply RInt_ge_0; [lra|apply cint; auto|intros; apply P]).
  rewrite <- (RInt_Chasles f a c b) by (apply cint; auto). rewrite <- (RInt_Chasles f c d b) by (apply cint; auto).
  unfold plus. simpl. pose proof (N a c AC). pose proof (N d b DB). lra.
Qed.
Lemma int_le_line f v a b : line f v -> cont_line f -> (forall x, 0 <= f x) -> a <= b -> RInt f a b <= v.
Proof.
  intros H C P AB. apply le_epsilon. intros eps EP. destruct (line_elim f v H eps EP) as (M & D & K).
  set (a' := Rmin a (- M - 1)). set (b' := Rmax b (M + 1)).
  assert (a' <= a) by apply Rmin_l. assert (a' <= - M - 1) by apply Rmin_r.
  assert (b <= b') by apply Rmax_l. assert (M + 1 <= b') by apply Rmax_r.
  specialize (K a' b' ltac:(lra) ltac:(lra)). apply Rabs_def2 in K.
  pose proof (line_pos f a' b' a b C P ltac:(lra) AB ltac:(lra)). lra.
Qed.
Lemma line_ge0 f v : line f v -> cont_line f -> (forall x, 0 <= f x) -> 0 <= v.
Proof. intros H C P. eapply Rle_trans; [|apply (int_le_line f v 0 0 H C P); lra]. rewrite RInt_point. apply Rle_refl. Qed.
(** what is left out by an interval *)
Lemma tail f v : line f v -> cont_line f -> (forall x, 0 <= f x) -> forall eps, 0 < eps -> exists M, 0 < M /\ forall a b, a < - M -> M < b -> v - eps < RInt f a b <= v.
Proof.
  intros H C P eps EP. destruct (line_elim f v H eps EP) as (M & D & K). exists M. split; auto. intros a b A B. specialize (K a b A B). apply Rabs_def2 in K.
  split; [lra|apply int_le_line; auto; lra].
Qed.
(** if |f| <= D, the integral of f over what an interval leaves out is bounded by that of D *)
Lemma RInt_dom f D (a b : R) : cont_line f -> cont_line D -> (forall x, Rabs (f x) <= D x) -> a <= b -> Rabs (RInt f a b) <= RInt D a b.
Proof.
  intros Cf CD B AB. apply Rle_trans with (RInt (fun x => Rabs (f x)) a b).
  - apply abs_RInt_le; [lra|apply cint; auto].
  - apply RInt_le; auto; [|apply cint; auto]. apply cint. intro x. apply (continuous_comp f Rabs); [apply Cf|apply continuous_Rabs].
Qed.
Lemma RInt_sub f D (a b c d : R) : cont_line f -> cont_line D -> (forall x, Rabs (f x) <= D x) -> a <= c -> c <= d -> d <= b ->
  Rabs (RInt f a b - RInt f c d) <= RInt D a b - RInt D c d.
Proof.
  intros Cf CD B AC CE DB.
  rewrite <- (RInt_Chasles f a c b), <- (RInt_Chasles f c d b) by (apply cint; auto). rewrite <- (RInt_Chasles D a c b), <- (RInt_Chasles D c d b) by (apply cint; auto).
  unfold plus. simpl. pose proof (RInt_dom f D a c Cf CD B AC). pose proof (RInt_dom f D d b Cf CD B DB).
  replace (RInt f a c + (RInt f c d + RInt f d b) - RInt f c d) with (RInt f a c + RInt f d b) by ring.
  eapply Rle_trans; [apply Rabs_triang|]. lra.
Qed.
Lemma line_dom f D v w a b : line f v -> line D w -> cont_line f -> cont_line D -> (forall x, Rabs (f x) <= D x) -> a <= b ->
  Rabs (v - RInt f a b) <= w - RInt D a b.
Proof.
  intros Hf HD Cf CD B AB. apply le_epsilon. intros eps EP.
  assert (PD : forall x, 0 <= D x) by (intro x; eapply Rle_trans; [apply Rabs_pos|apply B]).
  destruct (line_elim f v Hf eps EP) as (M & P & K).
  set (a' := Rmin a (- M - 1)). set (b' := Rmax b (M + 1)).
  assert (a' <= a) by apply Rmin_l. assert (a' <= - M - 1) by apply Rmin_r. assert (b <= b') by apply Rmax_l. assert (M + 1 <= b') by apply Rmax_r.
  specialize (K a' b' ltac:(lra) ltac:(lra)). pose proof (RInt_sub f D a' b' a b Cf CD B ltac:(lra) AB ltac:(lra)).
  pose proof (int_le_line D w a' b' HD CD PD ltac:(lra)).
  replace (v - RInt f a b) with (- (RInt f a' b' - v) + (RInt f a' b' - RInt f a b)) by ring.
  eapply Rle_trans; [apply Rabs_triang|]. rewrite Rabs_Ropp. lra.
Qed.
(** dominated functions are integrable *)
Lemma line_exists f D w : line D w -> cont_line f -> cont_line D -> (forall x, Rabs (f x) <= D x) -> exists v, line f v.
Proof.
  intros HD Cf CD B. assert (PD : forall x, 0 <= D x) by (intro x; eapply Rle_trans; [apply Rabs_pos|apply B]).
  assert (CA : Cauchy_crit (fun n => RInt f (- INR n) (INR n))).
  { intros eps EP. destruct (tail D w HD CD PD eps EP) as (M & P & K). destruct (nfloor_ex M ltac:(lra)) as [N [_ HN]]. exists (S N).
    assert (W : forall n, (S N <= n)%nat -> M < INR n) by (intros n L; apply le_INR in L; rewrite S_INR in L; lra).
    assert (G : forall n m, (S N <= n)%nat -> (n <= m)%nat -> Rabs (RInt f (- INR m) (INR m) - RInt f (- INR n) (INR n)) < eps).
    { intros n m L1 L2. pose proof (W n L1). pose proof (W m ltac:(lia)). apply le_INR in L2.
      pose proof (RInt_sub f D (- INR m) (INR m) (- INR n) (INR n) Cf CD B ltac:(lra) ltac:(lra) ltac:(lra)).
      pose proof (K (- INR m) (INR m) ltac:(lra) ltac:(lra)). pose proof (K (- INR n) (INR n) ltac:(lra) ltac:(lra)). lra. }
    intros n m Ln Lm. unfold R_dist. destruct (Nat.le_ge_cases n m); [rewrite Rabs_minus_sym; apply G|apply G]; auto. }
  destruct (Rcomplete.R_complete _ CA) as [v V]. exists v. apply line_intro; auto. intros eps EP.
  destruct (tail D w HD CD PD (eps/2) ltac:(lra)) as (M & P & K). exists M. split; auto. intros a b A A'.
  destruct (V (eps/2) ltac:(lra)) as [N HN]. destruct (nfloor_ex (Rmax (- a) b)) as [n0 [_ Hn]]; [pose proof (Rmax_r (- a) b); lra|].
  set (n := Nat.max N (S n0)). specialize (HN n (Nat.le_max_l _ _)). unfold R_dist in HN.
  assert (Rmax (- a) b < INR n). { eapply Rlt_le_trans; [exact Hn|]. rewrite <- S_INR. apply le_INR. unfold n. lia. }
  pose proof (Rmax_l (- a) b). pose proof (Rmax_r (- a) b).
  pose proof (RInt_sub f D (- INR n) (INR n) a b Cf CD B ltac:(lra) ltac:(lra) ltac:(lra)).
  pose proof (K (- INR n) (INR n) ltac:(lra) ltac:(lra)). pose proof (K a b A A').
  replace (RInt f a b - v) with (- (RInt f (- INR n) (INR n) - RInt f a b) + (RInt f (- INR n) (INR n) - v)) by ring.
  eapply Rle_lt_trans; [apply Rabs_triang|]. rewrite Rabs_Ropp. lra.
Qed.
