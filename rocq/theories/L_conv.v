(** Sums of independent normal variates: means of functions of at most exponential growth. *)
From Coq Require Import Reals Lra Psatz Lia Classical.
From Coquelicot Require Import Coquelicot.
From Verif Require Import M_rv S_rv S_dist L_gauss L_gauss2 L_dist L_line L_fourier L_jumppdf L_gop L_cirrun.
Local Open Scope R_scope.

Lemma tail_exp g D v w B e : line g v -> line D w -> cont_line g -> cont_line D -> (forall u, 0 <= D u) -> 0 <= B -> 0 <= e ->
  (forall u, B <= Rabs u -> Rabs (g u) <= e * D u) -> Rabs (v - RInt g (- B) B) <= e * w.
Proof.
  intros Hg HD Cg CD PD HB He H. apply le_epsilon. intros eps EP. destruct (line_elim g v Hg eps EP) as (M & MP & K).
  set (A := Rmax M B + 1). assert (A1 : M < A) by (unfold A; pose proof (Rmax_l M B); lra). assert (A2 : B < A) by (unfold A; pose proof (Rmax_r M B); lra).
  specialize (K (- A) A ltac:(lra) A1).
  assert (S : forall h, cont_line h -> RInt h (- A) A = RInt h (- A) (- B) + RInt h (- B) B + RInt h B A).
  { intros h Ch. rewrite <- (RInt_Chasles (V := R_CompleteNormedModule) h (- A) (- B) A) by (apply cint; auto).
    rewrite <- (RInt_Chasles (V := R_CompleteNormedModule) h (- B) B A) by (apply cint; auto). unfold plus. simpl. ring. }
  assert (CeD : cont_line (fun u => e * D u)) by (apply cont_mult; auto; apply cont_const).
  assert (Q : forall a b, a <= b -> (forall u, a <= u <= b -> B <= Rabs u) -> Rabs (RInt g a b) <= e * RInt D a b).
  { intros a b AB HU. rewrite <- RInt_mult_const by auto. 
    eapply Rle_trans; [apply (abs_RInt_le g a b AB); apply cint; auto|].
    apply RInt_le; auto; [apply cint; intro; apply continuous_comp; [apply Cg|apply continuous_Rabs]|apply cint; auto|].
    intros u Hu. apply H. apply HU. lra. }
  assert (Q1 := Q (- A) (- B) ltac:(lra) ltac:(intros u Hu; rewrite Rabs_left1 by lra; lra)).
  assert (Q2 := Q B A ltac:(lra) ltac:(intros u Hu; rewrite Rabs_pos_eq by lra; lra)).
  assert (T := int_le_line D w (- A) A HD CD PD ltac:(lra)). rewrite (S D CD) in T. rewrite (S g Cg) in K.
  assert (D0 : 0 <= RInt D (- B) B). { apply RInt_ge_0; [lra|apply cint; auto|auto]. }
  assert (T' : e * RInt D (- A) (- B) + e * RInt D B A <= e * w) by nra.
  replace (v - RInt g (- B) B) with (- (RInt g (- A) (- B) + RInt g (- B) B + RInt g B A - v) + (RInt g (- A) (- B) + RInt g B A)) by ring.
  eapply Rle_trans; [apply Rabs_triang|]. rewrite Rabs_Ropp. pose proof (Rabs_triang (RInt g (- A) (- B)) (RInt g B A)). lra.
Qed.

(** the order of means and integrals *)
Section Swap.
Variable K : R -> R -> R.
Hypothesis CK : forall x u, continuous (fun p : R * R => K (fst p) (snd p)) (x, u).
Hypothesis BK : forall r, exists M, forall x u, Rabs u <= r -> Rabs (K x u) <= M.
Hypothesis EK : forall u0 eps, 0 < eps -> exists del : posreal, forall x u, Rabs (u - u0) < del -> Rabs (K x u - K x u0) <= eps.

Lemma cK1 x : cont_line (K x).
Proof. intro u. apply (continuous_comp_2 (fun _ => x) (fun u => u) K); [apply continuous_const|apply continuous_id|apply (CK x u)]. Qed.
Lemma cK2 u : cont_line (fun x => K x u).
Proof. intro x. apply (continuous_comp_2 (fun x => x) (fun _ => u) K); [apply continuous_id|apply continuous_const|apply (CK x u)]. Qed.
Lemma tame_bounded f M : cont_line f -> (forall x, Rabs (f x) <= M) -> tame f.
Proof.
  intros C H. split; auto. exists M, 0. assert (M0 : 0 <= M) by (eapply Rle_trans; [apply Rabs_pos|apply (H 0)]). split; auto. split; [lra|].
  intro x. specialize (H x). pose proof (ch_ge 0 x). nra.
Qed.
Lemma tK u : tame (fun x => K x u).
Proof. destruct (BK (Rabs u)) as (M & HM). apply (tame_bounded _ M); [apply cK2|]. intro x. apply HM. lra. Qed.
Lemma int_bound x c d M : c <= d -> (forall u, c <= u <= d -> Rabs (K x u) <= M) -> Rabs (RInt (K x) c d) <= (d - c) * M.
Proof. intros CD H. apply abs_RInt_le_const; auto. apply cint, cK1. Qed.
Lemma int_cont c d : cont_line (fun x => RInt (K x) c d).
Proof.
  intro x0. apply filterlim_locally. intros [eps EP]. set (r := Rabs c + Rabs d). assert (R0 : 0 <= r) by (unfold r; pose proof (Rabs_pos c); pose proof (Rabs_pos d); lra).
  set (e := eps/(2*(r + 1))). assert (E0 : 0 < e) by (unfold e; apply Rdiv_lt_0_compat; lra).
  generalize (tube (fun x u => K x u) x0 r R0 (fun z => CK x0 z) e E0). apply filter_imp. intros x H.
  change (Rabs (RInt (K x) c d - RInt (K x0) c d) < eps).
  rewrite <- (RInt_minus_ (K x) (K x0) c d) by apply cK1.
  assert (CM : cont_line (fun y => K x y - K x0 y)) by (intro y; apply (continuous_minus (V := R_NormedModule) (K x) (K x0)); apply cK1).
  assert (G : forall c d, c <= d -> Rabs c <= r -> Rabs d <= r -> Rabs (RInt (fun y => K x y - K x0 y) c d) <= (d - c) * e).
  { intros c' d' CD' Hc Hd. apply abs_RInt_le_const; auto.
    - apply cint; auto.
    - intros t Ht. apply (H t). unfold Rabs in *. destruct (Rcase_abs c'), (Rcase_abs d'), (Rcase_abs t); lra. }
  assert (ER : e * (2 * (r + 1)) = eps) by (unfold e; field; lra).
  assert (B1 : Rabs c <= r) by (unfold r; pose proof (Rabs_pos d); lra). assert (B2 : Rabs d <= r) by (unfold r; pose proof (Rabs_pos c); lra).
  pose proof (Rle_abs c). pose proof (Rle_abs d). pose proof (Rle_abs (- c)) as X1. pose proof (Rle_abs (- d)) as X2. rewrite Rabs_Ropp in X1, X2.
  destruct (Rle_dec c d) as [CD|CD].
  - specialize (G c d CD B1 B2). nra.
  - rewrite <- (opp_RInt_swap (V := R_CompleteNormedModule)); [|apply cint; auto].
    unfold opp. simpl. rewrite Rabs_Ropp. specialize (G d c ltac:(lra) B2 B1). nra.
Qed.
Lemma tI c d : tame (fun x => RInt (K x) c d).
Proof.
  destruct (BK (Rabs c + Rabs d)) as (M & HM). pose proof (Rabs_pos c). pose proof (Rabs_pos d).
  apply (tame_bounded _ (Rabs (d - c) * M)); [apply int_cont|]. intro x.
  assert (B : forall u, Rmin c d <= u <= Rmax c d -> Rabs (K x u) <= M).
  { intros u Hu. apply HM. unfold Rmin, Rmax, Rabs in *. destruct (Rle_dec c d), (Rcase_abs c), (Rcase_abs d), (Rcase_abs u); lra. }
  destruct (Rle_dec c d) as [CD|CD].
  - rewrite (Rabs_pos_eq (d - c)) by lra. apply int_bound; auto. rewrite Rmin_left, Rmax_right in B by lra. exact B.
  - rewrite <- (opp_RInt_swap (V := R_CompleteNormedModule)) by (apply cint, cK1). unfold opp. simpl. rewrite Rabs_Ropp.
    rewrite (Rabs_left1 (d - c)) by lra. replace (- (d - c)) with (c - d) by ring. apply int_bound; [lra|]. rewrite Rmin_right, Rmax_left in B by lra. exact B.
Qed.
Lemma EN_cont : cont_line (fun u => EN (fun x => K x u)).
Proof.
  intro u0. apply filterlim_locally. intros [eps EP]. destruct (EK u0 (eps/2) ltac:(lra)) as (del & H). exists del. intros u Hu. simpl.
  change (Rabs (EN (fun x => K x u) - EN (fun x => K x u0)) < eps).
  replace (EN (fun x => K x u) - EN (fun x => K x u0)) with (EN (fun x => K x u + (-1) * K x u0)).
  2: { rewrite (EN_plus (fun x => K x u) (fun x => (-1) * K x u0)), (EN_scal (-1) (fun x => K x u0)); auto using tK; [ring|apply (tame_scal (-1) (fun x => K x u0)), tK]. }
  eapply Rle_lt_trans; [apply (EN_abs _ (fun _ => eps/2))|rewrite EN_const; lra].
  - apply (tame_plus (fun x => K x u) (fun x => (-1) * K x u0)); [apply tK|apply (tame_scal (-1) (fun x => K x u0)), tK].
  - apply tame_const.
  - intro x. replace (K x u + -1 * K x u0) with (K x u - K x u0) by ring. apply H. exact Hu.
Qed.
Lemma EN_derive c d : is_derive (fun d => EN (fun x => RInt (K x) c d)) d (EN (fun x => K x d)).
Proof.
  split; [apply (is_linear_scal_l (K := R_AbsRing) (V := R_NormedModule))|]. intros d0 Hd. apply (is_filter_lim_locally_unique (V := R_NormedModule)) in Hd. subst d0.
  intros [eps EP]. destruct (EK d eps EP) as (del & H). exists del. intros y Hy.
  change (Rabs (EN (fun x => RInt (K x) c y) - EN (fun x => RInt (K x) c d) - (y - d) * EN (fun x => K x d)) <= eps * Rabs (y - d)).
  assert (T1 := tI c y). assert (T2 := tame_scal (-1) (fun x => RInt (K x) c d) (tI c d)). assert (T3 := tame_scal (- (y - d)) (fun x => K x d) (tK d)).
  assert (T4 := tame_plus (fun x => (-1) * RInt (K x) c d) (fun x => (- (y - d)) * K x d) T2 T3).
  assert (E : EN (fun x => RInt (K x) c y) - EN (fun x => RInt (K x) c d) - (y - d) * EN (fun x => K x d) =
     EN (fun x => RInt (K x) c y + ((-1) * RInt (K x) c d + (- (y - d)) * K x d))).
  { rewrite (EN_plus (fun x => RInt (K x) c y) (fun x => (-1) * RInt (K x) c d + (- (y - d)) * K x d) T1 T4),
      (EN_plus (fun x => (-1) * RInt (K x) c d) (fun x => (- (y - d)) * K x d) T2 T3), (EN_scal (-1) (fun x => RInt (K x) c d) (tI c d)), (EN_scal (- (y - d)) (fun x => K x d) (tK d)). ring. }
  rewrite E. rewrite <- (EN_const (eps * Rabs (y - d))). apply EN_abs; [exact (tame_plus (fun x => RInt (K x) c y) (fun x => (-1) * RInt (K x) c d + (- (y - d)) * K x d) T1 T4)|apply tame_const|].
  intro x.
  assert (EI : RInt (K x) c y + ((-1) * RInt (K x) c d + (- (y - d)) * K x d) = RInt (fun u => K x u - K x d) d y).
  { rewrite (RInt_minus_ (K x) (fun _ => K x d)); [|apply cK1|apply cont_const]. rewrite RInt_const.
    rewrite <- (RInt_Chasles (V := R_CompleteNormedModule) (K x) c d y) by (apply cint, cK1). unfold plus, scal. simpl. unfold mult. simpl. ring. }
  rewrite EI. assert (CM : cont_line (fun u => K x u - K x d)) by (intro u; apply (continuous_minus (V := R_NormedModule) (K x) (fun _ => K x d)); [apply cK1|apply continuous_const]).
  assert (Hy' : Rabs (y - d) < del) by exact Hy.
  destruct (Rle_dec d y) as [DY|DY].
  - rewrite (Rabs_pos_eq (y - d)) in * by lra. rewrite Rmult_comm. apply abs_RInt_le_const; auto; [apply cint; auto|]. intros t Ht. apply H. rewrite Rabs_pos_eq; lra.
  - rewrite <- (opp_RInt_swap (V := R_CompleteNormedModule)) by (apply cint; auto). unfold opp. simpl. rewrite Rabs_Ropp.
    rewrite (Rabs_left1 (y - d)) in * by lra. rewrite Rmult_comm. replace (- (y - d)) with (d - y) by ring. apply abs_RInt_le_const; [lra|apply cint; auto|]. intros t Ht. apply H. rewrite Rabs_left1; lra.
Qed.
Lemma EN_RInt c d : c <= d -> EN (fun x => RInt (K x) c d) = RInt (fun u => EN (fun x => K x u)) c d.
Proof.
  intros [CD|<-].
  2: { rewrite RInt_point. transitivity (EN (fun _ => 0)); [|apply EN_const]. apply EN_ext. intro x. rewrite RInt_point. reflexivity. }
  set (A := fun d => EN (fun x => RInt (K x) c d)). set (W := fun d => RInt (fun u => EN (fun x => K x u)) c d).
  assert (DW : forall x, is_derive W x (EN (fun y => K y x))).
  { intro x. apply (is_derive_RInt (V := R_NormedModule) (fun u => EN (fun x => K x u)) W c x); [|apply EN_cont].
    apply filter_forall. intro y. apply (RInt_correct (V := R_CompleteNormedModule)). apply cint, EN_cont. }
  assert (E : A c - W c = A d - W d).
  { apply (eq_is_derive (V := R_NormedModule) (fun x => A x - W x) c d); auto. intros x _.
    replace (@zero R_NormedModule) with (minus (EN (fun y => K y x)) (EN (fun y => K y x))).
    - apply (is_derive_minus (V := R_NormedModule) A W); auto. apply EN_derive.
    - unfold minus, plus, opp, zero. simpl. ring. }
  assert (A0 : A c = 0). { unfold A. transitivity (EN (fun _ => 0)); [|apply EN_const]. apply EN_ext. intro x. rewrite RInt_point. reflexivity. }
  assert (W0 : W c = 0) by (unfold W; rewrite RInt_point; reflexivity).
  fold (A d) (W d). lra.
Qed.
End Swap.

(** *** two normal variates *)
Lemma phi_lip z y : Rabs (phi z - phi y) <= Rabs (z - y).
Proof.
  assert (H : forall a b, a < b -> Rabs (phi b - phi a) <= Rabs (b - a)).
  { intros a b AB. destruct (MVT_gen phi a b (fun x => - x * phi x)) as (c & _ & E).
    - intros x _. apply phi_derive.
    - intros x _. apply continuity_pt_filterlim. apply phi_cont.
    - rewrite E, Rabs_mult. assert (Rabs (- c * phi c) <= 1); [|pose proof (Rabs_pos (b - a)); nra].
      rewrite Rabs_mult, Rabs_Ropp, (Rabs_pos_eq (phi c)) by (left; apply phi_pos).
      unfold phi. assert (S1 : 1 <= sqrt (2*PI)) by (rewrite <- sqrt_1; apply sqrt_le_1_alt; pose proof PI2_1; lra).
      assert (X : Rabs c * exp (- (c*c/2)) <= 1).
      { rewrite exp_Ropp. assert (Y := exp_ineq1_le (c*c/2)). assert (Z : Rabs c <= 1 + c*c/2) by (replace (c*c) with (Rabs c * Rabs c) by (rewrite <- Rabs_mult; apply Rabs_pos_eq; nra); pose proof (Rabs_pos c); nra).
        apply Rmult_le_reg_r with (exp (c*c/2)); [apply exp_pos|]. rewrite Rmult_assoc, Rinv_l by (apply Rgt_not_eq, exp_pos). lra. }
      unfold Rdiv. rewrite <- Rmult_assoc. apply Rmult_le_reg_r with (sqrt (2*PI)); [lra|]. rewrite Rmult_assoc, Rinv_l by lra. lra. }
  destruct (Rtotal_order z y) as [L|[-> |L]].
  - rewrite (Rabs_minus_sym (phi z)), (Rabs_minus_sym z). apply H; auto.
  - rewrite !Rminus_eq_0, Rabs_R0. lra.
  - apply H; auto.
Qed.
Lemma phi_le1 z : phi z <= 1.
Proof.
  unfold phi. assert (S1 : 1 <= sqrt (2*PI)) by (rewrite <- sqrt_1; apply sqrt_le_1_alt; pose proof PI2_1; lra).
  assert (exp (- (z*z/2)) <= 1) by (rewrite <- exp_0; apply exp_le; nra).
  apply Rmult_le_reg_r with (sqrt (2*PI)); [lra|]. unfold Rdiv. rewrite Rmult_assoc, Rinv_l by lra. lra.
Qed.

Section Two.
Variables (f : R -> R) (m a b : R).
Hypothesis TF : tame f.
Hypothesis HB : 0 < b.
Let K (x u : R) : R := f u * npdf (m + a*x) b u.
Lemma npdf_le z u : npdf z b u <= / b.
Proof using HB. rewrite npdf_phi. pose proof (phi_le1 ((u - z)/b)). unfold Rdiv at 1. assert (0 < / b) by (apply Rinv_0_lt_compat; auto). nra. Qed.
Lemma npdf_lip z u v : Rabs (npdf z b u - npdf z b v) <= Rabs (u - v) / (b*b).
Proof using HB.
  rewrite !npdf_phi. unfold Rdiv at 1 3. rewrite <- Rmult_minus_distr_r, Rabs_mult, (Rabs_pos_eq (/ b)) by (left; apply Rinv_0_lt_compat; auto).
  assert (I : 0 < / b) by (apply Rinv_0_lt_compat; auto).
  apply Rle_trans with (Rabs ((u - z)/b - (v - z)/b) * / b); [apply Rmult_le_compat_r; [lra|apply phi_lip]|].
  replace ((u - z)/b - (v - z)/b) with ((u - v) * / b) by (field; lra). rewrite Rabs_mult, (Rabs_pos_eq (/ b)) by lra. right. field. lra.
Qed.
Lemma K_cont x u : continuous (fun p : R * R => K (fst p) (snd p)) (x, u).
Proof using TF HB.
  unfold K. apply (continuous_mult (K := R_AbsRing) (fun p : R * R => f (snd p)) (fun p => npdf (m + a * fst p) b (snd p))).
  - apply (continuous_comp (fun p : R * R => snd p) f); [apply continuous_snd|apply TF].
  - apply (continuous_ext (fun p : R * R => phi ((snd p - (m + a * fst p)) * / b) * / b)); [intro; rewrite npdf_phi; reflexivity|].
    apply (continuous_mult (K := R_AbsRing)); [|apply continuous_const].
    apply (continuous_comp (fun p : R * R => (snd p - (m + a * fst p)) * / b) phi); [|apply phi_cont].
    apply (continuous_mult (K := R_AbsRing)); [|apply continuous_const].
    apply (continuous_minus (V := R_NormedModule)); [apply continuous_snd|].
    apply (continuous_plus (V := R_NormedModule)); [apply continuous_const|].
    apply (continuous_mult (K := R_AbsRing)); [apply continuous_const|apply continuous_fst].
Qed.
Lemma K_bound r : exists M, forall x u, Rabs u <= r -> Rabs (K x u) <= M.
Proof using TF HB.
  destruct TF as (_ & C & c & C0 & c0 & D). exists (C * (2 * exp (c * r)) * / b). intros x u Hu. unfold K.
  rewrite Rabs_mult, (Rabs_pos_eq (npdf _ _ _)) by (left; apply npdf_pos; auto). assert (I : 0 < / b) by (apply Rinv_0_lt_compat; auto).
  apply Rmult_le_compat; [apply Rabs_pos|left; apply npdf_pos; auto| |apply npdf_le].
  eapply Rle_trans; [apply D|]. apply Rmult_le_compat_l; auto. destruct (ch_abs c u c0) as [_ H]. eapply Rle_trans; [exact H|].
  assert (exp (c * Rabs u) <= exp (c * r)) by (apply exp_le; apply Rmult_le_compat_l; auto). lra.
Qed.
Lemma K_equi u0 eps : 0 < eps -> exists del : posreal, forall x u, Rabs (u - u0) < del -> Rabs (K x u - K x u0) <= eps.
Proof using TF HB.
  intro EP. assert (I : 0 < / b) by (apply Rinv_0_lt_compat; auto).
  assert (E1 : 0 < eps * b / 2) by (assert (0 < eps * b) by (apply Rmult_lt_0_compat; auto); lra).
  pose proof (proj1 TF u0) as Cf. apply filterlim_locally with (eps := mkposreal _ E1) in Cf. destruct Cf as (d1 & H1).
  set (F0 := Rabs (f u0) + 1). assert (F1 : 0 < F0) by (unfold F0; pose proof (Rabs_pos (f u0)); lra).
  assert (E2 : 0 < eps * (b * b) / (2 * F0)). { apply Rdiv_lt_0_compat; [|lra]. apply Rmult_lt_0_compat; auto. apply Rmult_lt_0_compat; auto. }
  set (d2 := mkposreal _ E2). exists (mkposreal (Rmin d1 d2) ltac:(apply Rmin_case; apply cond_pos)). intros x u Hu. simpl in Hu.
  assert (U1 : Rabs (u - u0) < d1) by (eapply Rlt_le_trans; [exact Hu|apply Rmin_l]). assert (U2 : Rabs (u - u0) < d2) by (eapply Rlt_le_trans; [exact Hu|apply Rmin_r]).
  specialize (H1 u U1). change (Rabs (f u - f u0) < eps * b / 2) in H1. simpl in U2.
  unfold K. replace (f u * npdf (m + a*x) b u - f u0 * npdf (m + a*x) b u0) with ((f u - f u0) * npdf (m + a*x) b u + f u0 * (npdf (m + a*x) b u - npdf (m + a*x) b u0)) by ring.
  eapply Rle_trans; [apply Rabs_triang|]. rewrite !Rabs_mult, (Rabs_pos_eq (npdf (m + a*x) b u)) by (left; apply npdf_pos; auto).
  assert (P1 : Rabs (f u - f u0) * npdf (m + a*x) b u <= eps / 2).
  { apply Rle_trans with ((eps * b / 2) * / b); [|right; field; lra]. apply Rmult_le_compat; [apply Rabs_pos|left; apply npdf_pos; auto|lra|apply npdf_le]. }
  assert (P2 : Rabs (f u0) * Rabs (npdf (m + a*x) b u - npdf (m + a*x) b u0) <= eps / 2).
  { apply Rle_trans with (F0 * ((eps * (b * b) / (2 * F0)) / (b * b))); [|right; field; lra].
    apply Rmult_le_compat; [apply Rabs_pos|apply Rabs_pos|unfold F0; lra|]. eapply Rle_trans; [apply npdf_lip|].
    apply Rmult_le_compat_r; [left; apply Rinv_0_lt_compat; apply Rmult_lt_0_compat; auto|lra]. }
  lra.
Qed.
Lemma K_line x : line (K x) (EN (fun y => f (m + a*x + b*y))).
Proof using TF HB.
  apply (normal_line (m + a*x) b (fun y => f (m + a*x + b*y)) (K x)); auto.
  - apply (tame_aff f (m + a*x) b TF).
  - apply EN_ok. apply (tame_aff f (m + a*x) b TF).
  - intro u. unfold K. f_equal. f_equal. field. lra.
Qed.
Lemma K_mean u : EN (fun x => K x u) = f u * npdf m (sqrt (a*a + b*b)) u.
Proof using TF HB.
  apply EN_eq. assert (H := normal_step 0 b m a u HB). apply (line_scal _ _ (f u)) in H.
  eapply line_eq; [eapply line_ext; [exact H|]|].
  - intro x. cbv beta. unfold K. unfold npdf. cbv zeta. replace (u - (m + a * x) - 0) with (u - (m + a*x)) by ring. ring.
  - rewrite Rplus_0_l, (Rplus_comm (b*b)). reflexivity.
Qed.
Lemma two_line : line (fun u => f u * npdf m (sqrt (a*a + b*b)) u) (EN (fun z => f (m + sqrt (a*a + b*b) * z))).
Proof using TF HB.
  assert (S : 0 < sqrt (a*a + b*b)) by (apply sqrt_lt_R0; nra).
  apply (normal_line m (sqrt (a*a + b*b)) (fun z => f (m + sqrt (a*a + b*b) * z))); auto.
  - apply (tame_aff f m _ TF).
  - apply EN_ok. apply (tame_aff f m _ TF).
  - intro u. f_equal. f_equal. field. lra.
Qed.
Lemma F_tame : tame (fun x => EN (fun y => f (m + a*x + b*y))).
Proof using TF HB.
  assert (TF' := TF). destruct TF as (Cf & C & c & C0 & c0 & D).
  split.
    - intro x0. apply (EN_continuous (fun x y => f (m + a*x + b*y)) x0 (C * (2 * exp (c * (Rabs (m + a*x0) + Rabs a)))) (c * b)).
      + nra.
      + intro z. apply (continuous_comp (fun p : R * R => m + a * fst p + b * snd p) f); [|apply Cf].
        apply (continuous_plus (V := R_NormedModule)).
        * apply (continuous_plus (V := R_NormedModule)); [apply continuous_const|]. apply (continuous_mult (K := R_AbsRing)); [apply continuous_const|apply continuous_fst].
        * apply (continuous_mult (K := R_AbsRing)); [apply continuous_const|apply continuous_snd].
      + intros x z. apply (tame_aff f (m + a*x) b TF').
      + exists (mkposreal 1 Rlt_0_1). intros x Hx z. change (Rabs (x - x0) < 1) in Hx. eapply Rle_trans; [apply D|]. rewrite Rmult_assoc. apply Rmult_le_compat_l; auto.
        destruct (ch_abs c (m + a*x + b*z) c0) as [_ H1]. destruct (ch_abs (c*b) z ltac:(nra)) as [H2 _].
        apply Rle_trans with (2 * exp (c * (Rabs (m + a*x0) + Rabs a)) * exp (c * b * Rabs z)); [|apply Rmult_le_compat_l; [pose proof (exp_pos (c * (Rabs (m + a*x0) + Rabs a))); lra|auto]].
        eapply Rle_trans; [exact H1|]. rewrite Rmult_assoc, <- exp_plus. apply Rmult_le_compat_l; [lra|]. apply exp_le. rewrite <- Rmult_plus_distr_l || idtac.
        replace (c * (Rabs (m + a * x0) + Rabs a) + c * b * Rabs z) with (c * (Rabs (m + a*x0) + Rabs a + b * Rabs z)) by ring. apply Rmult_le_compat_l; auto.
        replace (m + a*x + b*z) with ((m + a*x0) + a*(x - x0) + b*z) by ring. eapply Rle_trans; [apply Rabs_triang|]. rewrite (Rabs_mult b), (Rabs_pos_eq b) by lra. apply Rplus_le_compat_r.
        eapply Rle_trans; [apply Rabs_triang|]. apply Rplus_le_compat_l. rewrite Rabs_mult. pose proof (Rabs_pos a). pose proof (Rabs_pos (x - x0)). nra.
    - exists (C * (exp (c * c * (b * b) / 2) * (2 * exp (c * Rabs m)))), (c * Rabs a). pose proof (exp_pos (c * c * (b * b) / 2)) as X1. pose proof (exp_pos (c * Rabs m)) as X2.
      split; [apply Rmult_le_pos; auto; apply Rmult_le_pos; lra|]. split; [apply Rmult_le_pos; auto; apply Rabs_pos|]. intro x.
      assert (TC : tame (ch c)). { split; [apply ch_cont|]. exists 1, c. repeat split; try lra. intro z. rewrite Rabs_pos_eq by (left; apply ch_pos). lra. }
      eapply Rle_trans; [apply (EN_abs _ (fun y => C * ch c (m + a*x + b*y)))|].
      + apply (tame_aff f (m + a*x) b TF').
      + apply (tame_scal C (fun y => ch c (m + a*x + b*y))). apply (tame_aff (ch c) (m + a*x) b TC).
      + intro y. apply D.
      + rewrite (EN_scal C (fun y => ch c (m + a*x + b*y))) by apply (tame_aff (ch c) (m + a*x) b TC). rewrite EN_ch.
        apply Rle_trans with (C * (exp (c * c * (b * b) / 2) * (2 * exp (c * Rabs m) * ch (c * Rabs a) x))); [|right; ring]. apply Rmult_le_compat_l; auto.
        rewrite (Rmult_comm (ch c _)). apply Rmult_le_compat_l; [lra|]. destruct (ch_abs c (m + a*x) c0) as [_ H1].
        destruct (ch_abs (c * Rabs a) x ltac:(apply Rmult_le_pos; auto; apply Rabs_pos)) as [H2 _].
        apply Rle_trans with (2 * exp (c * Rabs m) * exp (c * Rabs a * Rabs x)); [|apply Rmult_le_compat_l; lra].
        eapply Rle_trans; [exact H1|]. rewrite Rmult_assoc, <- exp_plus. apply Rmult_le_compat_l; [lra|]. apply exp_le.
        replace (c * Rabs m + c * Rabs a * Rabs x) with (c * (Rabs m + Rabs a * Rabs x)) by ring. apply Rmult_le_compat_l; auto. rewrite <- Rabs_mult. apply Rabs_triang.
Qed.
Lemma conv_pos : EN (fun x => EN (fun y => f (m + a*x + b*y))) = EN (fun z => f (m + sqrt (a*a + b*b) * z)).
Proof using TF HB.
  assert (TF' := TF). destruct TF as (Cf & C & c & C0 & c0 & D).
  set (F := fun x => EN (fun y => f (m + a*x + b*y))).
  assert (CX : forall x, cont_line (K x)) by (intro x; apply (cK1 K K_cont)).
  assert (CD : forall x, cont_line (fun u => ch (c + 1) u * npdf (m + a*x) b u)).
  { intros x u. apply (continuous_mult (K := R_AbsRing) (ch (c + 1)) (npdf (m + a*x) b)); [apply ch_cont|].
    apply (continuous_ext (fun u => phi ((u - (m + a*x)) / b) / b)); [intro; rewrite npdf_phi; reflexivity|].
    apply (ex_derive_continuous (V := R_NormedModule)). auto_derive. exists (- ((u + - (m + a*x)) / b) * phi ((u + - (m + a*x)) / b)). apply phi_derive. }
  set (E1 := fun x => ch (c + 1) (m + a*x) * exp ((c + 1)*(c + 1)*(b*b)/2)).
  assert (LD : forall x, line (fun u => ch (c + 1) u * npdf (m + a*x) b u) (E1 x)).
  { intro x. assert (TC : tame (ch (c + 1))). { split; [apply ch_cont|]. exists 1, (c + 1). repeat split; try lra. intro z. rewrite Rabs_pos_eq by (left; apply ch_pos). lra. }
    eapply line_eq; [apply (normal_line (m + a*x) b (fun y => ch (c + 1) (m + a*x + b*y)) (fun u => ch (c + 1) u * npdf (m + a*x) b u) _ HB)|].
    - apply (tame_aff _ (m + a*x) b TC).
    - apply EN_ok. apply (tame_aff _ (m + a*x) b TC).
    - intro u. f_equal. f_equal. field. lra.
    - apply EN_ch. }
  assert (TL : forall B x, 0 <= B -> Rabs (F x - RInt (K x) (- B) B) <= (2 * C * exp (- B)) * E1 x).
  { intros B x B0. apply (tail_exp (K x) (fun u => ch (c + 1) u * npdf (m + a*x) b u)); auto.
    - apply K_line.
    - intro u. apply Rmult_le_pos; [left; apply ch_pos|left; apply npdf_pos; auto].
    - pose proof (exp_pos (- B)). nra.
    - intros u Hu. unfold K. rewrite Rabs_mult, (Rabs_pos_eq (npdf _ _ _)) by (left; apply npdf_pos; auto). rewrite <- Rmult_assoc.
      apply Rmult_le_compat_r; [left; apply npdf_pos; auto|]. eapply Rle_trans; [apply D|].
      destruct (ch_abs c u c0) as [_ H1]. destruct (ch_abs (c + 1) u ltac:(lra)) as [H2 _].
      assert (H3 : exp (c * Rabs u) <= exp (- B) * exp ((c + 1) * Rabs u)) by (rewrite <- exp_plus; apply exp_le; nra).
      apply Rle_trans with (C * (2 * (exp (- B) * ch (c + 1) u))); [|right; ring]. apply Rmult_le_compat_l; auto.
      assert (exp (- B) * exp ((c + 1) * Rabs u) <= exp (- B) * ch (c + 1) u) by (apply Rmult_le_compat_l; [left; apply exp_pos|auto]). lra. }
  assert (TE : tame E1).
  { apply (tame_ext (fun x => exp ((c + 1)*(c + 1)*(b*b)/2) * ch (c + 1) (m + a*x))); [intro; unfold E1; ring|]. apply tame_scal. apply (tame_aff (ch (c + 1))).
    split; [apply ch_cont|]. exists 1, (c + 1). repeat split; try lra. intro z. rewrite Rabs_pos_eq by (left; apply ch_pos). lra. }
  assert (TFx := F_tame). fold F in TFx.
  apply cond_eq. intros eps EP.
  (* a large interval *)
  set (Q := 2 * C * EN E1). assert (Q0 : 0 <= Q). { unfold Q. apply Rmult_le_pos; [lra|]. apply EN_ge0; auto. intro x. apply Rmult_le_pos; [left; apply ch_pos|left; apply exp_pos]. }
  destruct (line_elim _ _ two_line (eps/2) ltac:(lra)) as (M & MP & HM).
  set (B := Rmax (M + 1) (2 * (Q + 1) / eps)). assert (B1 : M < B) by (unfold B; pose proof (Rmax_l (M + 1) (2 * (Q + 1) / eps)); lra). assert (B2 : 2 * (Q + 1) / eps <= B) by apply Rmax_r.
  specialize (HM (- B) B ltac:(lra) B1).
  assert (EQ : EN (fun x => RInt (K x) (- B) B) = RInt (fun u => f u * npdf m (sqrt (a*a + b*b)) u) (- B) B).
  { rewrite (EN_RInt K K_cont K_bound K_equi) by lra. apply RInt_ext. intros u _. apply K_mean. }
  assert (TI := tI K K_cont K_bound (- B) B).
  assert (A1 : Rabs (EN F - EN (fun x => RInt (K x) (- B) B)) <= Q * exp (- B)).
  { replace (EN F - EN (fun x => RInt (K x) (- B) B)) with (EN (fun x => F x + (-1) * RInt (K x) (- B) B)).
    2: { rewrite (EN_plus F (fun x => (-1) * RInt (K x) (- B) B) TFx (tame_scal (-1) _ TI)), (EN_scal (-1) _ TI). ring. }
    eapply Rle_trans; [apply (EN_abs _ (fun x => (2 * C * exp (- B)) * E1 x))|].
    - apply (tame_plus F (fun x => (-1) * RInt (K x) (- B) B) TFx (tame_scal (-1) _ TI)).
    - apply (tame_scal _ E1 TE).
    - intro x. replace (F x + -1 * RInt (K x) (- B) B) with (F x - RInt (K x) (- B) B) by ring. apply TL. lra.
    - rewrite (EN_scal _ E1 TE). unfold Q. right. ring. }
  rewrite EQ in A1. set (I := RInt _ (- B) B) in *.
  assert (A2 : Q * exp (- B) < eps / 2).
  { rewrite exp_Ropp. assert (X := exp_ineq1_le B). assert (P : 0 < exp B) by apply exp_pos.
    assert (Y : 2 * (Q + 1) <= eps * B). { apply Rmult_le_compat_r with (r := eps) in B2; [|lra]. unfold Rdiv in B2. rewrite Rmult_assoc, Rinv_l in B2 by lra. lra. }
    apply Rmult_lt_reg_r with (exp B); auto. rewrite Rmult_assoc, Rinv_l by lra. nra. }
  fold F. replace (EN F - EN (fun z => f (m + sqrt (a*a + b*b) * z))) with ((EN F - I) + (I - EN (fun z => f (m + sqrt (a*a + b*b) * z)))) by ring.
  eapply Rle_lt_trans; [apply Rabs_triang|]. lra.
Qed.
End Two.

Lemma EN_sign f m a : tame f -> EN (fun z => f (m + a*z)) = EN (fun z => f (m + Rabs a*z)).
Proof.
  intro TF. unfold Rabs. destruct (Rcase_abs a); auto. rewrite <- (EN_opp (fun z => f (m + a*z)) (tame_aff f m a TF)). apply EN_ext. intro z. f_equal. ring.
Qed.
(** a x + b y is normal, of variance a^2 + b^2 *)
Lemma conv f m a b : tame f -> EN (fun x => EN (fun y => f (m + a*x + b*y))) = EN (fun z => f (m + sqrt (a*a + b*b) * z)).
Proof.
  intro TF. destruct (Req_dec b 0) as [-> |NB].
  - rewrite (EN_ext _ (fun x => f (m + a*x))). 2: { intro x. rewrite (EN_ext _ (fun _ => f (m + a*x))); [apply EN_const|]. intro y. f_equal. ring. }
    rewrite (EN_sign f m a TF). replace (a*a + 0*0) with (Rsqr a) by (unfold Rsqr; ring). rewrite sqrt_Rsqr_abs. reflexivity.
  - assert (P : 0 < Rabs b) by (apply Rabs_pos_lt; auto).
    rewrite (EN_ext _ (fun x => EN (fun y => f (m + a*x + Rabs b * y)))) by (intro x; apply (EN_sign f (m + a*x) b TF)).
    rewrite (conv_pos f m a (Rabs b) TF P). replace (Rabs b * Rabs b) with (b*b); auto. rewrite <- Rabs_mult. symmetry. apply Rabs_pos_eq. nra.
Qed.
Lemma tame_EN f m a b : tame f -> tame (fun x => EN (fun y => f (m + a*x + b*y))).
Proof.
  intro TF. destruct (Req_dec b 0) as [-> |NB].
  - apply (tame_ext (fun x => f (m + a*x))); [|apply (tame_aff f m a TF)]. intro x. rewrite (EN_ext _ (fun _ => f (m + a*x))); [symmetry; apply EN_const|]. intro y. f_equal. ring.
  - apply (tame_ext (fun x => EN (fun y => f (m + a*x + Rabs b * y)))); [intro x; symmetry; apply (EN_sign f (m + a*x) b TF)|]. apply (F_tame f m a (Rabs b) TF (Rabs_pos_lt b NB)).
Qed.
