(** Functions of sums of independent normal variates, continuous or not: the class of functions for which means over one variate
    after the other are means over their sum. *)
From Coq Require Import Reals Lra Psatz Lia.
From Coquelicot Require Import Coquelicot.
From Verif Require Import M_rv S_rv S_dist L_gauss L_gauss2 L_dist L_line L_gop L_cirrun L_conv P_price S_mean.
Local Open Scope R_scope.

Lemma mean_ge0 h v : mean_normal h v -> (forall z, 0 <= h z) -> 0 <= v.
Proof.
  intros H P. apply Rnot_lt_le. intro N. assert (EP : 0 < - v) by lra. unfold mean_normal in H.
  destruct (H (ball v (mkposreal _ EP))) as [Q1 Q2 [M1 H1] [M2 H2] K]; [exists (mkposreal _ EP); auto|].
  set (A := Rabs M1 + Rabs M2 + 1). assert (P1 := Rabs_pos M1). assert (P2 := Rabs_pos M2). assert (L1 := Rle_abs (- M1)). assert (L2 := Rle_abs M2). rewrite Rabs_Ropp in L1.
  destruct (K (- A) A) as (y & Y1 & Y2); [apply H1; unfold A; lra|apply H2; unfold A; lra|]. cbn [fst snd] in Y1.
  assert (Y0 : 0 <= y).
  { rewrite <- (is_RInt_unique (V := R_CompleteNormedModule) _ _ _ _ Y1). apply RInt_ge_0; [unfold A; lra|eexists; exact Y1|]. intros x _. apply Rmult_le_pos; [apply P|]. left. apply (phi_pos x). }
  change (Rabs (y - v) < - v) in Y2. apply Rabs_def2 in Y2. lra.
Qed.
Lemma mean_le h k v w : mean_normal h v -> mean_normal k w -> (forall z, h z <= k z) -> v <= w.
Proof.
  intros H K E. assert (X := mean_plus _ _ _ _ K (mean_scal (-1) _ _ H)). apply mean_ge0 in X; [lra|]. intro z. specialize (E z). lra.
Qed.

(** means over one variate after the other *)
Definition cok (f : R -> R) : Prop := forall m a b, mean_normal (fun z => EN (fun y => f (m + a*z + b*y))) (EN (fun z => f (m + sqrt (a*a + b*b) * z))).
Lemma tame_cok f : tame f -> cok f.
Proof. intros TF m a b. rewrite <- (conv f m a b TF). apply EN_ok, tame_EN, TF. Qed.
Lemma cok_ext f h : (forall x, f x = h x) -> cok f -> cok h.
Proof. intros E H m a b. eapply mean_ext; [apply (H m a b)| |]; [intro z; apply EN_ext; intro; symmetry; apply E|apply EN_ext; intro; apply E]. Qed.
Lemma cok_mean f m a : cok f -> mean_normal (fun z => f (m + a*z)) (EN (fun z => f (m + Rabs a*z))).
Proof.
  intro H. eapply mean_ext; [apply (H m a 0)| |].
  - intro z. cbv beta. rewrite (EN_ext _ (fun _ => f (m + a*z))); [symmetry; apply EN_const|]. intro. f_equal. ring.
  - apply EN_ext. intro z. do 3 f_equal. replace (a*a + 0*0) with (Rsqr a) by (unfold Rsqr; ring). apply sqrt_Rsqr_abs.
Qed.
Lemma cok_plus f h : cok f -> cok h -> cok (fun x => f x + h x).
Proof.
  intros Hf Hh m a b.
  assert (X : forall f h m b, cok f -> cok h -> EN (fun y => f (m + b*y) + h (m + b*y)) = EN (fun y => f (m + b*y)) + EN (fun y => h (m + b*y))).
  { intros f1 f2 m' b' H1 H2. apply EN_eq. assert (M1 := cok_mean f1 m' b' H1). assert (M2 := cok_mean f2 m' b' H2).
    rewrite (EN_eq _ _ M1), (EN_eq _ _ M2). apply (mean_plus _ _ _ _ M1 M2). }
  rewrite X by auto. eapply mean_ext; [apply (mean_plus _ _ _ _ (Hf m a b) (Hh m a b))| |reflexivity]. intro z. apply X; auto.
Qed.
Lemma cok_scal k f : cok f -> cok (fun x => k * f x).
Proof.
  intros Hf m a b. assert (X : forall m b, EN (fun y => k * f (m + b*y)) = k * EN (fun y => f (m + b*y))).
  { intros m' b'. apply EN_eq. assert (M := cok_mean f m' b' Hf). rewrite (EN_eq _ _ M). apply (mean_scal k _ _ M). }
  rewrite X. eapply mean_ext; [apply (mean_scal k _ _ (Hf m a b))| |reflexivity]. intro z. apply X.
Qed.
Lemma cok_const a : cok (fun _ => a).
Proof. apply tame_cok, tame_const. Qed.

(** *** indicator functions *)
Lemma at_most_01 y x : 0 <= at_most y x <= 1.
Proof. unfold at_most. destruct (Rle_dec x y); lra. Qed.
Section Ind.
Variable F : R -> R.
Hypothesis HF : std_normal_cdf F.
Lemma above_mean z0 : mean_normal (fun z => if Rle_dec z z0 then 0 else 1) (1 - F z0).
Proof using HF.
  unfold mean_normal. replace (1 - F z0) with (plus 0 (1 - F z0)) by (unfold plus; simpl; ring).
  apply (is_RInt_gen_Chasles (V := R_CompleteNormedModule) _ z0).
  - apply head_zero. intros z Z. destruct (Rle_dec z z0); lra.
  - apply (tail_ext (fun z => phi z)).
    + apply integral_tail; [|apply phi_cont|apply (cdf_lim F HF)]. intro x. apply HF.
    + intros z Z. destruct (Rle_dec z z0); [lra|]. rewrite Rmult_1_l. reflexivity.
Qed.
Lemma below_mean z0 : mean_normal (at_most z0) (F z0).
Proof using HF.
  eapply mean_ext; [apply (mean_plus _ _ _ _ (mean_const 1) (mean_scal (-1) _ _ (above_mean z0)))| |ring]. intro z. unfold at_most. cbv beta. destruct (Rle_dec z z0); ring.
Qed.
Lemma strict_mean z0 : mean_normal (fun z => if Rlt_dec z z0 then 0 else 1) (1 - F z0).
Proof using HF.
  unfold mean_normal. replace (1 - F z0) with (plus 0 (1 - F z0)) by (unfold plus; simpl; ring).
  apply (is_RInt_gen_Chasles (V := R_CompleteNormedModule) _ z0).
  - apply head_zero. intros z Z. destruct (Rlt_dec z z0); lra.
  - apply (tail_ext (fun z => phi z)).
    + apply integral_tail; [|apply phi_cont|apply (cdf_lim F HF)]. intro x. apply HF.
    + intros z Z. destruct (Rlt_dec z z0); [lra|]. rewrite Rmult_1_l. reflexivity.
Qed.
Lemma ind_mean y m s : s <> 0 -> mean_normal (fun z => at_most y (m + s*z)) (F ((y - m)/Rabs s)).
Proof using HF.
  intro S. unfold Rabs. destruct (Rcase_abs s) as [N|N].
  - eapply mean_ext; [apply (strict_mean ((y - m)/s))| |].
    + intro z. unfold at_most. assert (Q : (y - m)/s*s = y - m) by (field; lra). destruct (Rle_dec (m + s*z) y), (Rlt_dec z ((y - m)/s)); try reflexivity; exfalso; nra.
    + rewrite <- (cdf_sym F HF). f_equal. field. lra.
  - eapply mean_ext; [apply (below_mean ((y - m)/s))| |reflexivity].
    intro z. unfold at_most. assert (Q : (y - m)/s*s = y - m) by (field; lra). destruct (Rle_dec (m + s*z) y), (Rle_dec z ((y - m)/s)); try reflexivity; exfalso; nra.
Qed.
Lemma EN_ind y m s : EN (fun z => at_most y (m + s*z)) = if Req_EM_T s 0 then at_most y m else F ((y - m)/Rabs s).
Proof using HF.
  destruct (Req_EM_T s 0) as [-> |N]; [|apply EN_eq, ind_mean; exact N]. rewrite (EN_ext _ (fun _ => at_most y m)); [apply EN_const|]. intro. f_equal. ring.
Qed.
(** continuous functions close to an indicator function *)
Definition ramp (y e x : R) : R := Rmax 0 (Rmin 1 ((y + e - x)/e)).
Lemma ramp_tame y e : 0 < e -> tame (ramp y e).
Proof using.
  intro E. apply (tame_bounded _ 1).
  - intro x. unfold ramp. apply (continuous_comp (fun x => Rmin 1 ((y + e - x)/e)) (fun t => Rmax 0 t)).
    + apply (continuous_comp (fun x => (y + e - x)/e) (fun t => Rmin 1 t)); [apply (ex_derive_continuous (V := R_NormedModule)); auto_derive; lra|].
      apply (continuous_ext (fun t => 1 - Rmax (1 - t) 0)); [intro t; unfold Rmax, Rmin; destruct (Rle_dec (1 - t) 0), (Rle_dec 1 t); match goal with |- ?a = ?b => change (@eq R a b) end; lra|].
      apply (continuous_minus (V := R_NormedModule) (fun _ => 1)); [apply continuous_const|]. apply (continuous_comp (fun t => 1 - t) (fun t => Rmax t 0)); [apply (ex_derive_continuous (V := R_NormedModule)); auto_derive; auto|apply tame_max].
    + apply (continuous_ext (fun t => Rmax t 0)); [intro; apply Rmax_comm|]. apply tame_max.
  - intro x. unfold ramp, Rmax, Rmin. destruct (Rle_dec 1 ((y + e - x)/e)); destruct (Rle_dec 0 _); apply Rabs_le; lra.
Qed.
Lemma ramp_between y e x : 0 < e -> at_most y x <= ramp y e x <= at_most (y + e) x.
Proof using.
  intro E. set (q := (y + e - x)/e). assert (Q : q * e = y + e - x) by (unfold q; field; lra). unfold ramp, at_most. fold q.
  destruct (Rle_dec x y), (Rle_dec x (y + e)); unfold Rmax, Rmin; destruct (Rle_dec 1 q); destruct (Rle_dec 0 _); split; try lra; exfalso; nra.
Qed.
Lemma ind_conv y m a b : b <> 0 -> mean_normal (fun z => EN (fun t => at_most y (m + a*z + b*t))) (EN (fun z => at_most y (m + sqrt (a*a + b*b) * z))).
Proof using HF.
  intro NB. set (c := sqrt (a*a + b*b)). assert (B2 : 0 < b*b) by nra. assert (CP : 0 < c) by (apply sqrt_lt_R0; nra).
  assert (IN : forall y z, EN (fun t => at_most y (m + a*z + b*t)) = F ((y - (m + a*z))/Rabs b)) by (intros; rewrite EN_ind; destruct (Req_EM_T b 0); [contradiction|reflexivity]).
  assert (BP : 0 < Rabs b) by (apply Rabs_pos_lt; exact NB).
  assert (FC : forall x, continuous F x) by (intro x; apply (ex_derive_continuous (V := R_NormedModule)); eexists; apply HF).
  assert (FB : forall x, Rabs (F x) <= 1).
  { intro x. assert (M := below_mean x). assert (L1 := mean_ge0 _ _ M (fun z => proj1 (at_most_01 x z))). assert (L2 := mean_le _ _ _ _ M (mean_const 1) (fun z => proj2 (at_most_01 x z))). apply Rabs_le. lra. }
  assert (T : forall y, tame (fun z => F ((y - (m + a*z))/Rabs b))).
  { intro y'. apply (tame_bounded _ 1); [|intro; apply FB]. intro z. apply (continuous_comp (fun z => (y' - (m + a*z))/Rabs b) F); [|apply FC]. apply (ex_derive_continuous (V := R_NormedModule)). auto_derive. lra. }
  set (H := fun y => EN (fun z => F ((y - (m + a*z))/Rabs b))). set (K := fun y => F ((y - m)/c)).
  assert (KE : forall y, EN (fun z => at_most y (m + c*z)) = K y).
  { intro y'. rewrite EN_ind. destruct (Req_EM_T c 0); [lra|]. rewrite Rabs_pos_eq by lra. reflexivity. }
  assert (KM : forall y, mean_normal (fun z => at_most y (m + c*z)) (K y)).
  { intro y'. assert (X := ind_mean y' m c ltac:(lra)). rewrite (Rabs_pos_eq c) in X by lra. exact X. }
  assert (RC : forall y e, 0 < e -> EN (fun z => EN (fun t => ramp y e (m + a*z + b*t))) = EN (fun z => ramp y e (m + c*z))) by (intros y' e He; apply conv, ramp_tame, He).
  assert (UP : forall y e, 0 < e -> H y <= K (y + e)).
  { intros y' e He. apply Rle_trans with (EN (fun z => ramp y' e (m + c*z))).
    - rewrite <- RC by exact He. apply EN_le; [apply T|apply tame_EN, ramp_tame, He|]. intro z. rewrite <- IN. rewrite IN.
      apply (mean_le _ _ _ _ (ind_mean y' (m + a*z) b NB) (EN_ok _ (tame_aff _ (m + a*z) b (ramp_tame y' e He)))). intro t. apply ramp_between, He.
    - apply (mean_le _ _ _ _ (EN_ok _ (tame_aff _ m c (ramp_tame y' e He))) (KM (y' + e))). intro z. apply ramp_between, He. }
  assert (DN : forall y e, 0 < e -> K y <= H (y + e)).
  { intros y' e He. apply Rle_trans with (EN (fun z => ramp y' e (m + c*z))).
    - apply (mean_le _ _ _ _ (KM y') (EN_ok _ (tame_aff _ m c (ramp_tame y' e He)))). intro z. apply ramp_between, He.
    - rewrite <- RC by exact He. apply EN_le; [apply tame_EN, ramp_tame, He|apply T|]. intro z.
      apply (mean_le _ _ _ _ (EN_ok _ (tame_aff _ (m + a*z) b (ramp_tame y' e He))) (ind_mean (y' + e) (m + a*z) b NB)). intro t. apply ramp_between, He. }
  assert (CK : continuous K y) by (apply (continuous_comp (fun y => (y - m)/c) F); [apply (ex_derive_continuous (V := R_NormedModule)); auto_derive; lra|apply FC]).
  assert (EQ : H y = K y).
  { apply cond_eq. intros eps EP. destruct (proj1 (filterlim_locally _ _) CK (mkposreal eps EP)) as ([del DP] & Q).
    assert (Q1 : Rabs (K (y + del/2) - K y) < eps). { apply Q. change (Rabs (y + del/2 - y) < del). rewrite Rabs_pos_eq; lra. }
    assert (Q2 : Rabs (K (y - del/2) - K y) < eps). { apply Q. change (Rabs (y - del/2 - y) < del). rewrite Rabs_left1; lra. }
    assert (U := UP y (del/2) ltac:(lra)). assert (D := DN (y - del/2) (del/2) ltac:(lra)). replace (y - del/2 + del/2) with y in D by ring.
    apply Rabs_def2 in Q1. apply Rabs_def2 in Q2. apply Rabs_def1; lra. }
  rewrite KE, <- EQ. eapply mean_ext; [apply EN_ok, (T y)| |reflexivity]. intro z. apply IN.
Qed.
End Ind.
Lemma ind_cok y : cok (at_most y).
Proof.
  intros m a b. destruct (Req_EM_T b 0) as [-> |NB]; [|apply (ind_conv _ cdf_exists); exact NB].
  assert (SA : sqrt (a*a + 0*0) = Rabs a) by (replace (a*a + 0*0) with (Rsqr a) by (unfold Rsqr; ring); apply sqrt_Rsqr_abs). rewrite SA.
  eapply mean_ext with (h := fun z => at_most y (m + a*z)); [| |reflexivity].
  - destruct (Req_EM_T a 0) as [-> |NA].
    + rewrite Rabs_R0. rewrite (EN_ext _ (fun _ => at_most y m)) by (intro; f_equal; ring). rewrite EN_const. eapply mean_ext; [apply (mean_const (at_most y m))| |reflexivity]. intro. cbv beta. f_equal. ring.
    + rewrite (EN_ind _ cdf_exists). destruct (Req_EM_T (Rabs a) 0) as [N|_]; [apply Rabs_no_R0 in NA; contradiction|]. rewrite Rabs_Rabsolu. apply (ind_mean _ cdf_exists); exact NA.
  - intro z. rewrite (EN_ext _ (fun _ => at_most y (m + a*z))); [apply EN_const|]. intro. f_equal. ring.
Qed.
