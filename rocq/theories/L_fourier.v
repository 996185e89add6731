(** Inversion of Fourier transforms. *)
From Coq Require Import Reals Lra Psatz Lia.
From Coquelicot Require Import Coquelicot.
From Verif Require Import S_dist M_analytical S_analytical L_complex L_gauss L_gauss2 L_dist L_gamma L_line.
Local Open Scope R_scope.

Lemma cont_cos (q : R -> R) u : cont_line q -> cont_line (fun z => cos (u*z) * q z).
Proof.
  intros C z. apply (continuous_mult (K := R_AbsRing) (fun z => cos (u*z)) q); [|apply C].
  apply (ex_derive_continuous (V := R_NormedModule)). auto_derive; auto.
Qed.
Lemma cont_mult (f g : R -> R) : cont_line f -> cont_line g -> cont_line (fun x => f x * g x).
Proof. intros F G x. apply (continuous_mult (K := R_AbsRing) f g); auto. Qed.
Lemma cont_const c : cont_line (fun _ => c).
Proof. intro x. apply continuous_const. Qed.
Lemma cont_2d (f : R -> R) x y : cont_line f -> continuity_2d_pt (fun _ v => f v) x y.
Proof. intro C. apply (continuity_1d_2d_pt_comp f); [|apply continuity_2d_pt_id2]. apply continuity_pt_filterlim. apply C. Qed.
Lemma cont_2d' (f : R -> R) x y : cont_line f -> continuity_2d_pt (fun u _ => f u) x y.
Proof. intro C. apply (continuity_1d_2d_pt_comp f); [|apply continuity_2d_pt_id1]. apply continuity_pt_filterlim. apply C. Qed.
Lemma cos_2d x y : continuity_2d_pt (fun u v => cos (u*v)) x y.
Proof.
  apply (continuity_1d_2d_pt_comp cos). { apply derivable_continuous_pt. apply derivable_pt_cos. }
  apply continuity_2d_pt_mult; [apply continuity_2d_pt_id1|apply continuity_2d_pt_id2].
Qed.
(** transforms of the restriction to an interval *)
Lemma trunc_derive (q : R -> R) a b u : cont_line q ->
  is_derive (fun u => RInt (fun z => cos (u*z) * q z) a b) u (RInt (fun z => - z*sin (u*z) * q z) a b).
Proof.
  intro C. assert (D : forall z v, is_derive (fun w => cos (w*z) * q z) v (- z*sin (v*z) * q z)) by (intros; auto_derive; auto; ring).
  replace (RInt (fun z => - z*sin (u*z) * q z) a b) with (RInt (fun z => Derive (fun w => cos (w*z) * q z) u) a b).
  2: { apply RInt_ext. intros z _. apply is_derive_unique. apply D. }
  apply (is_derive_RInt_param (fun w z => cos (w*z) * q z) a b u).
  - exists (mkposreal 1 Rlt_0_1). intros y _ t _. eexists. apply D.
  - intros t _. apply continuity_2d_pt_ext with (fun w z => (- z*sin (w*z)) * q z).
    + intros w z. symmetry. apply is_derive_unique. apply D.
    + apply continuity_2d_pt_mult; [|apply cont_2d; auto].
      apply continuity_2d_pt_mult; [apply continuity_2d_pt_opp, continuity_2d_pt_id2|].
      apply (continuity_1d_2d_pt_comp sin). { apply derivable_continuous_pt. apply derivable_pt_sin. }
      apply continuity_2d_pt_mult; [apply continuity_2d_pt_id1|apply continuity_2d_pt_id2].
  - exists (mkposreal 1 Rlt_0_1). intros y _. apply cint. apply cont_cos; auto.
Qed.
Lemma trunc_cont (q : R -> R) a b : cont_line q -> cont_line (fun u => RInt (fun z => cos (u*z) * q z) a b).
Proof. intros C u. apply (ex_derive_continuous (V := R_NormedModule)). eexists. apply trunc_derive; auto. Qed.
Lemma RInt_swap_cos (f : R -> R) (z a b : R) : RInt (fun u => cos (u*z) * f u) a b = RInt (fun u => cos (z*u) * f u) a b.
Proof. apply RInt_ext. intros u _. rewrite (Rmult_comm u z). reflexivity. Qed.
(** the order of integration on a rectangle *)
Lemma fubini_cos (q g : R -> R) a b c d : cont_line q -> cont_line g -> c <= d ->
  RInt (fun u => g u * RInt (fun z => cos (u*z) * q z) a b) c d = RInt (fun z => q z * RInt (fun u => cos (z*u) * g u) c d) a b.
Proof.
  intros Cq Cg [CD|<-].
  2: { rewrite RInt_point. symmetry. rewrite (RInt_ext _ (fun _ => 0)). { rewrite RInt_const. unfold scal, zero. simpl. unfold mult. simpl. ring. }
       intros z _. rewrite RInt_point. apply Rmult_0_r. }
  set (L := fun d => RInt (fun u => g u * RInt (fun z => cos (u*z) * q z) a b) c d).
  set (W := fun d => RInt (fun z => q z * RInt (fun u => cos (z*u) * g u) c d) a b).
  assert (DL : forall x, is_derive L x (g x * RInt (fun z => cos (x*z) * q z) a b)).
  { intro x. apply (is_derive_RInt (V := R_NormedModule) (fun u => g u * RInt (fun z => cos (u*z) * q z) a b) L c x).
    - apply filter_forall. intro y. apply (RInt_correct (V := R_CompleteNormedModule)). apply cint. apply cont_mult; auto. apply trunc_cont; auto.
    - apply cont_mult; auto. apply trunc_cont; auto. }
  assert (DI : forall z x, is_derive (fun x => q z * RInt (fun u => cos (z*u) * g u) c x) x (q z * (cos (x*z) * g x))).
  { intros z x. apply (is_derive_scal (fun x => RInt (fun u => cos (z*u) * g u) c x)). rewrite (Rmult_comm x z).
    apply (is_derive_RInt (V := R_NormedModule) (fun u => cos (z*u) * g u) (fun x => RInt (fun u => cos (z*u) * g u) c x) c x); [|apply cont_cos; auto].
    apply filter_forall. intro y. apply (RInt_correct (V := R_CompleteNormedModule)). apply cint. apply cont_cos; auto. }
  assert (DW : forall x, is_derive W x (g x * RInt (fun z => cos (x*z) * q z) a b)).
  { intro x. replace (g x * RInt (fun z => cos (x*z) * q z) a b) with (RInt (fun z => Derive (fun x => q z * RInt (fun u => cos (z*u) * g u) c x) x) a b).
    2: { transitivity (RInt (fun z => scal (g x) (cos (x*z) * q z)) a b).
         - apply RInt_ext. intros z _. refine (eq_trans (is_derive_unique _ _ _ (DI z x)) _). unfold scal. simpl. unfold mult. simpl. match goal with |- ?a = ?b => change (@eq R a b) end. ring.
         - apply (RInt_scal (V := R_CompleteNormedModule)). apply cint. apply cont_cos; auto. }
    apply (is_derive_RInt_param (fun x z => q z * RInt (fun u => cos (z*u) * g u) c x) a b x).
    - exists (mkposreal 1 Rlt_0_1). intros y _ z _. eexists. apply DI.
    - intros z _. apply continuity_2d_pt_ext with (fun x z => q z * (cos (x*z) * g x)).
      + intros y v. symmetry. apply is_derive_unique. apply DI.
      + apply continuity_2d_pt_mult; [apply cont_2d; auto|]. apply continuity_2d_pt_mult; [apply cos_2d|apply cont_2d'; auto].
    - exists (mkposreal 1 Rlt_0_1). intros y _. apply cint. apply cont_mult; auto. apply trunc_cont; auto. }
  assert (E : L c - W c = L d - W d).
  { apply (eq_is_derive (V := R_NormedModule) (fun x => L x - W x) c d); auto. intros x _.
    replace (@zero R_NormedModule) with (minus (g x * RInt (fun z => cos (x*z) * q z) a b) (g x * RInt (fun z => cos (x*z) * q z) a b)).
    - apply (is_derive_minus (V := R_NormedModule) L W); auto.
    - unfold minus, plus, opp, zero. simpl. ring. }
  assert (L0 : L c = 0) by (unfold L; rewrite RInt_point; reflexivity).
  assert (W0 : W c = 0).
  { unfold W. rewrite (RInt_ext _ (fun _ => 0)). { rewrite RInt_const. unfold scal. simpl. unfold mult. simpl. ring. }
    intros z _. rewrite RInt_point. apply Rmult_0_r. }
  fold (L d) (W d). lra.
Qed.

(** transforms of integrable functions *)
Section Transform.
Variables (q psi : R -> R) (Q : R).
Hypotheses (Cq : cont_line q) (Pq : forall x, 0 <= q x) (Lq : line q Q) (T : forall u, line (fun z => cos (u*z) * q z) (psi u)).
Lemma cos_q u z : Rabs (cos (u*z) * q z) <= q z.
Proof. rewrite Rabs_mult, (Rabs_pos_eq (q z)) by auto. pose proof (COS_bound (u*z)). assert (Rabs (cos (u*z)) <= 1) by (apply Rabs_le; lra). specialize (Pq z). nra. Qed.
Lemma trunc_err u A : 0 <= A -> Rabs (psi u - RInt (fun z => cos (u*z) * q z) (- A) A) <= Q - RInt q (- A) A.
Proof. intro HA. apply (line_dom (fun z => cos (u*z) * q z) q); auto; [apply cont_cos; auto|intro; apply cos_q|lra]. Qed.
Lemma psi_cont : cont_line psi.
Proof.
  intros u P [e HP]. destruct (tail q Q Lq Cq Pq (e/3)) as (M & MP & K). { destruct e; simpl in *; lra. }
  pose proof (trunc_cont q (- (M + 1)) (M + 1) Cq u) as TC.
  assert (E3 : 0 < e/3) by (destruct e; simpl in *; lra).
  specialize (TC (ball (RInt (fun z => cos (u*z) * q z) (- (M + 1)) (M + 1)) (mkposreal _ E3)) (ex_intro _ (mkposreal _ E3) (fun y H => H))).
  destruct TC as [d TC]. exists d. intros v V. apply HP. specialize (TC v V).
  unfold ball in *. simpl in *. unfold AbsRing_ball, abs, minus, plus, opp in *. simpl in *.
  pose proof (trunc_err u (M + 1) ltac:(lra)) as E1. pose proof (trunc_err v (M + 1) ltac:(lra)) as E2. specialize (K (- (M + 1)) (M + 1) ltac:(lra) ltac:(lra)).
  set (Iu := RInt (fun z => cos (u*z) * q z) (- (M + 1)) (M + 1)) in *. set (Iv := RInt (fun z => cos (v*z) * q z) (- (M + 1)) (M + 1)) in *.
  replace (psi v + - psi u) with ((psi v - Iv) + ((Iv + - Iu) + - (psi u - Iu))) by ring.
  eapply Rle_lt_trans; [apply Rabs_triang|]. eapply Rle_lt_trans; [apply Rplus_le_compat_l, Rabs_triang|]. rewrite Rabs_Ropp. lra.
Qed.
End Transform.

Lemma RInt_mult_const (f : R -> R) (k a b : R) : cont_line f -> RInt (fun x => k * f x) a b = k * RInt f a b.
Proof. intro C. apply (RInt_scal (V := R_CompleteNormedModule) f a b k). apply cint; auto. Qed.
Lemma RInt_minus_ (f g : R -> R) (a b : R) : cont_line f -> cont_line g -> RInt (fun x => f x - g x) a b = RInt f a b - RInt g a b.
Proof. intros F G. apply (RInt_minus (V := R_CompleteNormedModule) f g a b); apply cint; auto. Qed.

(** integral of g times the transform of q, and of q times the transform of g *)
Lemma parseval (q g psi K : R -> R) Q G A B : cont_line q -> cont_line g -> (forall x, 0 <= q x) -> (forall x, 0 <= g x) -> line q Q -> line g G ->
  (forall u, line (fun z => cos (u*z) * q z) (psi u)) -> (forall z, line (fun u => cos (z*u) * g u) (K z)) -> 0 <= A -> 0 <= B ->
  Rabs (RInt (fun u => g u * psi u) (- B) B - RInt (fun z => q z * K z) (- A) A) <= G * (Q - RInt q (- A) A) + Q * (G - RInt g (- B) B).
Proof.
  intros Cq Cg Pq Pg Lq Lg Tq Tg HA HB.
  assert (Cpsi := psi_cont q psi Q Cq Pq Lq Tq). assert (CK := psi_cont g K G Cg Pg Lg Tg).
  pose proof (fubini_cos q g (- A) A (- B) B Cq Cg ltac:(lra)) as F.
  set (pA := fun u => RInt (fun z => cos (u*z) * q z) (- A) A) in *. set (kB := fun z => RInt (fun u => cos (z*u) * g u) (- B) B) in *.
  assert (CpA : cont_line pA) by (apply trunc_cont; auto). assert (CkB : cont_line kB) by (apply trunc_cont; auto).
  assert (gen : forall f h h' H A tau, cont_line f -> cont_line h -> cont_line h' -> (forall x, 0 <= f x) -> line f H -> 0 <= A -> (forall x, Rabs (h x - h' x) <= tau) ->
           Rabs (RInt (fun x => f x * h x) (- A) A - RInt (fun x => f x * h' x) (- A) A) <= H * tau).
  { clear. intros f h h' H A tau Cf Ch Ch' Pf Lf HA E. rewrite <- RInt_minus_ by (apply cont_mult; auto).
    assert (T0 : 0 <= tau) by (eapply Rle_trans; [apply Rabs_pos|apply (E 0)]).
    eapply Rle_trans; [apply (RInt_dom _ (fun x => tau * f x))|].
    - intro x. apply (continuous_minus (V := R_NormedModule) (fun x => f x * h x) (fun x => f x * h' x)); apply cont_mult; auto.
    - apply cont_mult; auto. apply cont_const.
    - intro x. replace (f x * h x - f x * h' x) with (f x * (h x - h' x)) by ring. rewrite Rabs_mult, (Rabs_pos_eq (f x)) by auto. specialize (E x). specialize (Pf x). nra.
    - lra.
    - rewrite RInt_mult_const by auto. pose proof (int_le_line f H (- A) A Lf Cf Pf ltac:(lra)). nra. }
  pose proof (gen g psi pA G B (Q - RInt q (- A) A) Cg Cpsi CpA Pg Lg HB (fun u => trunc_err q psi Q Cq Pq Lq Tq u A HA)) as E1.
  pose proof (gen q K kB Q A (G - RInt g (- B) B) Cq CK CkB Pq Lq HA (fun z => trunc_err g K G Cg Pg Lg Tg z B HB)) as E2.
  assert (F' : RInt (fun u => g u * pA u) (- B) B = RInt (fun z => q z * kB z) (- A) A) by exact F.
  set (X := RInt (fun u => g u * psi u) (- B) B) in *. set (Y := RInt (fun z => q z * K z) (- A) A) in *.
  set (X' := RInt (fun u => g u * pA u) (- B) B) in *. set (Y' := RInt (fun z => q z * kB z) (- A) A) in *.
  replace (X - Y) with ((X - X') + (X' - Y') + - (Y - Y')) by ring. rewrite F', (Rminus_diag_eq Y' Y' eq_refl), Rplus_0_r.
  eapply Rle_trans; [apply Rabs_triang|]. rewrite Rabs_Ropp. rewrite F' in E1. lra.
Qed.
(** what an interval leaves out, when one function is below the other there *)
Lemma outside (f h : R -> R) d A : cont_line f -> cont_line h -> (forall x, 0 <= h x) -> (forall x, d <= Rabs x -> f x <= h x) -> 0 <= d -> d <= A ->
  RInt f (- A) A - RInt f (- d) d <= RInt h (- A) A.
Proof.
  intros Cf Ch Ph L D DA.
  rewrite <- (RInt_Chasles f (- A) (- d) A), <- (RInt_Chasles f (- d) d A) by (apply cint; auto). rewrite <- (RInt_Chasles h (- A) (- d) A), <- (RInt_Chasles h (- d) d A) by (apply cint; auto).
  unfold plus. simpl.
  assert (RInt f (- A) (- d) <= RInt h (- A) (- d)) by (apply RInt_le; [lra|apply cint; auto|apply cint; auto|intros x X; apply L; rewrite Rabs_left; lra]).
  assert (RInt f d A <= RInt h d A) by (apply RInt_le; [lra|apply cint; auto|apply cint; auto|intros x X; apply L; rewrite Rabs_right; lra]).
  assert (0 <= RInt h (- d) d) by (apply RInt_ge_0; [lra|apply cint; auto|intros; apply Ph]). lra.
Qed.
Lemma npdf_cont m s : s <> 0 -> cont_line (npdf m s).
Proof. intros S x. apply (ex_derive_continuous (V := R_NormedModule)). eexists. apply npdf_dx; auto. Qed.
Lemma npdf_line m s : 0 < s -> line (npdf m s) 1.
Proof.
  intro S. destruct (normal_fourier m s S 0) as [H _]. eapply line_eq; [eapply line_ext; [exact H|]|].
  - intro x. cbv beta. rewrite Rmult_0_l, cos_0. ring.
  - unfold normal_chf, cexp. cbn [fst snd]. replace (- (s*s*0*0/2)) with 0 by (unfold Rdiv; ring). replace (m*0) with 0 by ring. rewrite exp_0, cos_0. ring.
Qed.
Lemma sqrt2pi_1 : 1 <= sqrt (2*PI).
Proof. rewrite <- sqrt_1 at 1. apply sqrt_le_1_alt. pose proof PI2_1. unfold PI2 in *. pose proof PI_RGT_0. lra. Qed.
(** exp(- s^2 u^2/2) *)
Section Gauss.
Variable s : R.
Hypothesis S0 : 0 < s.
Definition gk (u : R) : R := exp (- (s*s*(u*u)/2)).
Lemma gk_npdf u : gk u = sqrt (2*PI)/s * npdf 0 (/s) u.
Proof.
  unfold gk, npdf. cbv zeta. replace (- ((u - 0)/(/s) * ((u - 0)/(/s))/2)) with (- (s*s*(u*u)/2)) by (field; lra).
  pose proof sqrt2pi_1. field. split; lra.
Qed.
Lemma gk_cont : cont_line gk.
Proof. intro x. apply (ex_derive_continuous (V := R_NormedModule)). unfold gk. auto_derive; auto. Qed.
Lemma gk_pos u : 0 <= gk u. Proof. left. apply exp_pos. Qed.
Lemma gk_le u : gk u <= 1.
Proof.
  unfold gk. rewrite exp_Ropp. pose proof (Rle_0_sqr (s*u)). unfold Rsqr in *. pose proof (exp_ineq1_le (s*s*(u*u)/2)).
  rewrite <- Rinv_1. apply Rinv_le_contravar; lra.
Qed.
Lemma gk_near u : 0 <= 1 - gk u <= s*s*(u*u)/2.
Proof. split; [pose proof (gk_le u); lra|]. unfold gk. pose proof (exp_ineq1_le (- (s*s*(u*u)/2))). lra. Qed.
Lemma gk_line : line gk (sqrt (2*PI)/s).
Proof.
  eapply line_eq; [eapply line_ext; [apply (line_scal (npdf 0 (/s)) 1 (sqrt (2*PI)/s)); apply npdf_line, Rinv_0_lt_compat; auto|]|ring].
  intro u. symmetry. apply gk_npdf.
Qed.
Lemma gk_transform z : line (fun u => cos (z*u) * gk u) (2*PI*npdf 0 s z).
Proof.
  destruct (normal_fourier 0 (/s) (Rinv_0_lt_compat _ S0) z) as [H _].
  eapply line_eq; [eapply line_ext; [exact (line_scal _ _ (sqrt (2*PI)/s) H)|]|].
  - intro u. cbv beta. rewrite gk_npdf. ring.
  - unfold normal_chf, cexp. cbn [fst snd]. replace (0*z) with 0 by ring. rewrite cos_0. unfold npdf. cbv zeta.
    replace (- ((z - 0)/s * ((z - 0)/s)/2)) with (- (/s*/s*z*z/2)) by (field; lra).
    pose proof sqrt2pi_1. pose proof (sqrt_sqrt (2*PI) ltac:(pose proof PI_RGT_0; lra)) as QQ. set (w := sqrt (2*PI)) in *. rewrite <- QQ. field. split; lra.
Qed.
Lemma npdf_sym_le d z : 0 < d -> d <= Rabs z -> npdf 0 s z <= 2*s/(d*d).
Proof.
  intros D L. unfold npdf. cbv zeta. replace ((z - 0)/s * ((z - 0)/s)/2) with (z*z/(2*(s*s))) by (field; lra).
  assert (ZZ : d*d <= z*z). { revert L. unfold Rabs. destruct (Rcase_abs z); nra. }
  set (y := z*z/(2*(s*s))). assert (Y : d*d/(2*(s*s)) <= y). { unfold y, Rdiv. apply Rmult_le_compat_r; auto. left. apply Rinv_0_lt_compat. nra. }
  assert (Y0 : 0 < d*d/(2*(s*s))) by (apply Rdiv_lt_0_compat; nra).
  assert (E : exp (- y) <= 2*(s*s)/(d*d)).
  { rewrite exp_Ropp. pose proof (exp_ineq1_le y). apply Rle_trans with (/ (d*d/(2*(s*s)))); [apply Rinv_le_contravar; lra|]. right. field. split; nra. }
  pose proof sqrt2pi_1. pose proof (exp_pos (- y)).
  apply Rle_trans with (exp (- y)/s).
  - unfold Rdiv. apply Rmult_le_compat_r; [left; apply Rinv_0_lt_compat; auto|]. rewrite <- (Rmult_1_r (exp (- y))) at 2. apply Rmult_le_compat_l; [lra|]. rewrite <- Rinv_1. apply Rinv_le_contravar; lra.
  - replace (2*s/(d*d)) with (2*(s*s)/(d*d)/s) by (field; nra). unfold Rdiv at 1 3. apply Rmult_le_compat_r; [left; apply Rinv_0_lt_compat; auto|exact E].
Qed.
Lemma npdf_inside d : 0 < d -> 0 <= 1 - RInt (npdf 0 s) (- d) d <= s*s/(d*d).
Proof.
  intro D. assert (Cn : cont_line (npdf 0 s)) by (apply npdf_cont; lra). assert (Pn : forall x, 0 <= npdf 0 s x) by (intro; left; apply npdf_pos; auto).
  split. { pose proof (int_le_line _ _ (- d) d (npdf_line 0 s S0) Cn Pn ltac:(lra)). lra. }
  destruct (normal_moments 0 s S0) as [_ V].
  assert (Cv : cont_line (fun x => (x - 0)^2 * npdf 0 s x)).
  { apply cont_mult; auto. intro x. apply (ex_derive_continuous (V := R_NormedModule)). auto_derive; auto. }
  apply le_epsilon. intros eps EP. destruct (tail _ _ (npdf_line 0 s S0) Cn Pn eps EP) as (M & MP & K).
  set (A := M + d + 1). specialize (K (- A) A ltac:(unfold A; lra) ltac:(unfold A; lra)).
  pose proof (outside (npdf 0 s) (fun x => /(d*d) * ((x - 0)^2 * npdf 0 s x)) d A Cn) as O.
  rewrite (RInt_mult_const _ _ _ _ Cv) in O.
  pose proof (int_le_line _ _ (- A) A V Cv ltac:(intro x; cbv beta; apply Rmult_le_pos; [apply pow2_ge_0|apply Pn]) ltac:(unfold A; lra)) as IV.
  assert (0 < /(d*d)) by (apply Rinv_0_lt_compat; nra).
  assert (RInt (npdf 0 s) (- A) A - RInt (npdf 0 s) (- d) d <= /(d*d) * RInt (fun x => (x - 0)^2 * npdf 0 s x) (- A) A).
  { apply O; try (unfold A; lra).
    - apply cont_mult; auto. apply cont_const.
    - intro x. apply Rmult_le_pos; [lra|]. apply Rmult_le_pos; [apply pow2_ge_0|apply Pn].
    - intros x X. assert (ZZ : d*d <= x*x) by (revert X; unfold Rabs; destruct (Rcase_abs x); nra). replace ((x - 0)^2) with (x*x) by ring.
      rewrite <- Rmult_assoc. rewrite <- (Rmult_1_l (npdf 0 s x)) at 1. apply Rmult_le_compat_r; [apply Pn|].
      apply Rmult_le_reg_l with (d*d); [nra|]. rewrite <- Rmult_assoc, Rinv_r by nra. lra. }
  unfold Rdiv. nra.
Qed.
End Gauss.
(** normal densities of small variance *)
Lemma approx (q : R -> R) Q eps : cont_line q -> (forall x, 0 <= q x) -> line q Q -> 0 < eps ->
  exists s0 d, 0 < s0 /\ 0 < d /\ forall s A, 0 < s -> s < s0 -> d <= A -> Rabs (RInt (fun z => q z * npdf 0 s z) (- A) A - q 0) <= eps.
Proof.
  intros Cq Pq Lq EP. pose proof (line_ge0 q Q Lq Cq Pq) as Q0.
  assert (E3 : 0 < eps/3) by lra.
  destruct (Cq 0 (ball (q 0) (mkposreal _ E3)) (ex_intro _ (mkposreal _ E3) (fun y H => H))) as [d0 C0].
  set (d := d0/2). assert (D : 0 < d) by (unfold d; pose proof (cond_pos d0); lra).
  assert (NQ : forall z, - d <= z <= d -> Rabs (q z - q 0) <= eps/3).
  { intros z Z. left. apply C0. unfold ball. simpl. unfold AbsRing_ball, abs, minus, plus, opp. simpl. rewrite Ropp_0, Rplus_0_r. apply Rle_lt_trans with d; [apply Rabs_le; lra|]. unfold d. pose proof (cond_pos d0). lra. }
  assert (W : 0 < 3*(2*Q + q 0 + 1)) by (pose proof (Pq 0); lra).
  exists (Rmin 1 (d*d*eps/(3*(2*Q + q 0 + 1)))), d. split; [apply Rmin_pos; [lra|apply Rdiv_lt_0_compat; [|exact W]; pose proof (Rmult_lt_0_compat d d D D); apply Rmult_lt_0_compat; auto]|]. split; auto.
  intros s A S0 S1 DA.
  assert (s < 1) by (eapply Rlt_le_trans; [exact S1|apply Rmin_l]).
  assert (S2 : s*(2*Q + q 0 + 1) <= d*d*(eps/3)).
  { assert (s <= d*d*eps/(3*(2*Q + q 0 + 1))) by (eapply Rle_trans; [left; exact S1|apply Rmin_r]).
    apply Rle_trans with (d*d*eps/(3*(2*Q + q 0 + 1)) * (2*Q + q 0 + 1)); [apply Rmult_le_compat_r; lra|]. right. field. lra. }
  assert (Cn : cont_line (npdf 0 s)) by (apply npdf_cont; lra). assert (Pn : forall x, 0 <= npdf 0 s x) by (intro; left; apply npdf_pos; auto).
  assert (Cqn : cont_line (fun z => q z * npdf 0 s z)) by (apply cont_mult; auto).
  pose proof (npdf_inside s S0 d D) as IN.
  (* outside *)
  assert (O1 : RInt (fun z => q z * npdf 0 s z) (- A) A - RInt (fun z => q z * npdf 0 s z) (- d) d <= 2*s/(d*d) * Q).
  { eapply Rle_trans; [apply (outside _ (fun z => 2*s/(d*d) * q z)); auto|].
    - apply cont_mult; auto. apply cont_const.
    - intro x. apply Rmult_le_pos; [left; apply Rdiv_lt_0_compat; nra|apply Pq].
    - intros x X. rewrite Rmult_comm. apply Rmult_le_compat_r; [apply Pq|]. apply npdf_sym_le; auto.
    - lra.
    - rewrite RInt_mult_const by auto. apply Rmult_le_compat_l; [left; apply Rdiv_lt_0_compat; nra|]. apply int_le_line; auto. lra. }
  assert (O0 : RInt (fun z => q z * npdf 0 s z) (- d) d <= RInt (fun z => q z * npdf 0 s z) (- A) A).
  { apply line_pos; auto; try lra. intro x. apply Rmult_le_pos; auto. }
  (* inside *)
  assert (I1 : RInt (fun z => q z * npdf 0 s z) (- d) d <= (q 0 + eps/3) * RInt (npdf 0 s) (- d) d).
  { rewrite <- RInt_mult_const by auto. apply RInt_le; [lra|apply cint; auto|apply cint; apply cont_mult; auto; apply cont_const|].
    intros z Z. apply Rmult_le_compat_r; [apply Pn|]. specialize (NQ z ltac:(lra)). apply Rabs_le_between in NQ. lra. }
  assert (I0 : (q 0 - eps/3) * RInt (npdf 0 s) (- d) d <= RInt (fun z => q z * npdf 0 s z) (- d) d).
  { rewrite <- RInt_mult_const by auto. apply RInt_le; [lra|apply cint; apply cont_mult; auto; apply cont_const|apply cint; auto|].
    intros z Z. apply Rmult_le_compat_r; [apply Pn|]. specialize (NQ z ltac:(lra)). apply Rabs_le_between in NQ. lra. }
  set (J := RInt (npdf 0 s) (- d) d) in *. set (X := RInt (fun z => q z * npdf 0 s z) (- d) d) in *. set (Y := RInt (fun z => q z * npdf 0 s z) (- A) A) in *.
  assert (DD : 0 < d*d) by nra.
  assert (T1 : 2*s/(d*d) * Q <= eps/3).
  { apply Rmult_le_reg_l with (d*d); auto. replace (d*d*(2*s/(d*d)*Q)) with (2*s*Q) by (field; lra). pose proof (Pq 0). nra. }
  assert (T2 : q 0 * (1 - J) <= eps/3).
  { apply Rle_trans with (q 0 * (s*s/(d*d))); [apply Rmult_le_compat_l; [apply Pq|lra]|].
    apply Rmult_le_reg_l with (d*d); auto. replace (d*d*(q 0*(s*s/(d*d)))) with (q 0*s*s) by (field; lra). pose proof (Pq 0). assert (0 <= q 0*s) by nra. assert (q 0*s*s <= q 0*s) by nra. assert (0 <= s*Q) by nra. nra. }
  assert (J1 : 0 <= J <= 1). { split; [apply RInt_ge_0; [lra|apply cint; auto|intros; apply Pn]|lra]. }
  pose proof (Pq 0). assert (eps/3*J <= eps/3) by nra. assert (0 <= q 0*(1 - J)) by nra. apply Rabs_le. lra.
Qed.
(** a function whose transform psi is integrable is the transform of psi/2pi *)
Theorem invert (q psi D : R -> R) Q V : cont_line q -> (forall x, 0 <= q x) -> line q Q -> (forall u, line (fun z => cos (u*z) * q z) (psi u)) ->
  cont_line D -> (forall u, Rabs (psi u) <= D u) -> line D V -> line psi (2*PI*q 0).
Proof.
  intros Cq Pq Lq T CD BD LD. pose proof (line_ge0 q Q Lq Cq Pq) as Q0. assert (PD : forall x, 0 <= D x) by (intro x; eapply Rle_trans; [apply Rabs_pos|apply BD]).
  pose proof (line_ge0 D V LD CD PD) as V0. assert (Cp := psi_cont q psi Q Cq Pq Lq T). pose proof PI_RGT_0 as PI0.
  apply line_intro; auto. intros eps EP. destruct (tail D V LD CD PD (eps/8) ltac:(lra)) as (M & MP & KD). exists M. split; auto. intros a b HA HB.
  set (B := Rmax (- a) b). assert (- a <= B) by apply Rmax_l. assert (b <= B) by apply Rmax_r. assert (B0 : 0 < B) by lra.
  destruct (approx q Q (eps/8/(2*PI)) Cq Pq Lq ltac:(apply Rdiv_lt_0_compat; lra)) as (s0 & d & S0 & D0 & AP).
  (* s *)
  set (s := Rmin (s0/2) (Rmin 1 (eps/4/(B*B*(V + 1))))).
  assert (BV : 0 < B*B*(V + 1)) by nra.
  assert (SP : 0 < s). { apply Rmin_pos; [lra|]. apply Rmin_pos; [lra|]. apply Rdiv_lt_0_compat; lra. }
  assert (s < s0). { apply Rle_lt_trans with (s0/2); [apply Rmin_l|lra]. }
  assert (SB : s*s/2*(B*B)*V <= eps/8).
  { assert (s <= 1) by (eapply Rle_trans; [apply Rmin_r|apply Rmin_l]). assert (s <= eps/4/(B*B*(V + 1))) by (eapply Rle_trans; [apply Rmin_r|apply Rmin_r]).
    assert (s*(B*B*(V + 1)) <= eps/4). { apply Rle_trans with (eps/4/(B*B*(V + 1))*(B*B*(V + 1))); [apply Rmult_le_compat_r; lra|]. right. field. split; nra. }
    assert (0 <= B*B*V) by (apply Rmult_le_pos; nra). assert (ss : s*s <= s) by nra. pose proof (Rmult_le_compat_r (B*B*V) _ _ ltac:(auto) ss). assert (0 <= s*(B*B)) by (apply Rmult_le_pos; nra). lra. }
  pose proof (gk_line s SP) as LG. set (G := sqrt (2*PI)/s) in *. pose proof (line_ge0 _ _ LG (gk_cont s) (gk_pos s)) as G0.
  (* A *)
  destruct (tail q Q Lq Cq Pq (eps/8/(G + 1)) ltac:(apply Rdiv_lt_0_compat; lra)) as (M1 & MP1 & K1).
  destruct (tail (gk s) G LG (gk_cont s) (gk_pos s) (eps/8/(Q + 1)) ltac:(apply Rdiv_lt_0_compat; lra)) as (M2 & MP2 & K2).
  set (A := M1 + d + 1). set (B' := B + M2 + 1).
  specialize (K1 (- A) A ltac:(unfold A; lra) ltac:(unfold A; lra)). specialize (K2 (- B') B' ltac:(unfold B'; lra) ltac:(unfold B'; lra)).
  pose proof (parseval q (gk s) psi (fun z => 2*PI*npdf 0 s z) Q G A B' Cq (gk_cont s) Pq (gk_pos s) Lq LG T (gk_transform s SP) ltac:(unfold A; lra) ltac:(unfold B'; lra)) as PV.
  specialize (AP s A SP ltac:(auto) ltac:(unfold A; lra)).
  assert (Cn : cont_line (npdf 0 s)) by (apply npdf_cont; lra).
  assert (EK : RInt (fun z => q z * (2*PI*npdf 0 s z)) (- A) A = 2*PI * RInt (fun z => q z * npdf 0 s z) (- A) A).
  { rewrite <- RInt_mult_const by (apply cont_mult; auto). apply RInt_ext. intros z _. match goal with |- ?a = ?b => change (@eq R a b) end. ring. }
  cbv beta in PV. rewrite EK in PV.
  assert (P1 : G * (Q - RInt q (- A) A) <= eps/8).
  { apply Rle_trans with (G * (eps/8/(G + 1))); [apply Rmult_le_compat_l; lra|]. apply Rmult_le_reg_r with (G + 1); [lra|]. replace (G*(eps/8/(G + 1))*(G + 1)) with (G*(eps/8)) by (field; lra). nra. }
  assert (P2 : Q * (G - RInt (gk s) (- B') B') <= eps/8).
  { apply Rle_trans with (Q * (eps/8/(Q + 1))); [apply Rmult_le_compat_l; lra|]. apply Rmult_le_reg_r with (Q + 1); [lra|]. replace (Q*(eps/8/(Q + 1))*(Q + 1)) with (Q*(eps/8)) by (field; lra). nra. }
  set (Cgp := cont_mult (gk s) psi (gk_cont s) Cp).
  assert (BG : forall u, Rabs (gk s u * psi u) <= D u).
  { intro u. rewrite Rabs_mult, (Rabs_pos_eq (gk s u)) by apply gk_pos. pose proof (gk_le s u). pose proof (gk_pos s u). pose proof (Rabs_pos (psi u)). specialize (BD u). nra. }
  assert (R1 : Rabs (RInt (fun u => gk s u * psi u) (- B') B' - RInt (fun u => gk s u * psi u) (- B) B) <= eps/8).
  { eapply Rle_trans; [apply (RInt_sub _ D); auto; unfold B'; lra|]. pose proof (KD (- B') B' ltac:(unfold B'; lra) ltac:(unfold B'; lra)). pose proof (KD (- B) B ltac:(lra) ltac:(lra)). lra. }
  assert (R2 : Rabs (RInt psi (- B) B - RInt psi a b) <= eps/8).
  { eapply Rle_trans; [apply (RInt_sub _ D); auto; lra|]. pose proof (KD (- B) B ltac:(lra) ltac:(lra)). pose proof (KD a b HA HB). lra. }
  assert (R3 : Rabs (RInt psi (- B) B - RInt (fun u => gk s u * psi u) (- B) B) <= eps/8).
  { rewrite <- RInt_minus_ by auto. eapply Rle_trans; [apply (RInt_dom _ (fun u => s*s*(u*u)/2 * D u))|].
    - intro x. apply (continuous_minus (V := R_NormedModule) psi (fun x => gk s x * psi x)); auto.
    - apply cont_mult; auto. intro x. apply (ex_derive_continuous (V := R_NormedModule)). auto_derive; auto.
    - intro x. replace (psi x - gk s x * psi x) with ((1 - gk s x) * psi x) by ring. rewrite Rabs_mult. pose proof (gk_near s x) as [N0 N1]. rewrite (Rabs_pos_eq (1 - gk s x)) by auto.
      apply Rmult_le_compat; auto. apply Rabs_pos.
    - lra.
    - apply Rle_trans with (RInt (fun u => s*s/2*(B*B) * D u) (- B) B).
      + apply RInt_le; [lra| |apply cint; apply cont_mult; auto; apply cont_const|].
        * apply cint. apply cont_mult; auto. intro x. apply (ex_derive_continuous (V := R_NormedModule)). auto_derive; auto.
        * intros x X. apply Rmult_le_compat_r; auto. assert (x*x <= B*B) by nra. assert (0 <= s*s) by nra. nra.
      + rewrite RInt_mult_const by auto. eapply Rle_trans; [apply Rmult_le_compat_l; [nra|apply (int_le_line D V); auto; lra]|]. lra. }
  assert (R4 : Rabs (2*PI * RInt (fun z => q z * npdf 0 s z) (- A) A - 2*PI*q 0) <= eps/8).
  { replace (2*PI * RInt (fun z => q z * npdf 0 s z) (- A) A - 2*PI*q 0) with (2*PI * (RInt (fun z => q z * npdf 0 s z) (- A) A - q 0)) by ring.
    rewrite Rabs_mult, (Rabs_pos_eq (2*PI)) by lra. replace (eps/8) with (2*PI*(eps/8/(2*PI))) by (field; lra). apply Rmult_le_compat_l; [lra|exact AP]. }
  set (x1 := RInt psi a b) in *. set (x2 := RInt psi (- B) B) in *. set (x3 := RInt (fun u => gk s u * psi u) (- B) B) in *.
  set (x4 := RInt (fun u => gk s u * psi u) (- B') B') in *. set (x5 := 2*PI * RInt (fun z => q z * npdf 0 s z) (- A) A) in *.
  apply Rabs_le_between in R1. apply Rabs_le_between in R2. apply Rabs_le_between in R3. apply Rabs_le_between in R4. apply Rabs_le_between in PV.
  apply Rabs_def1; lra.
Qed.
