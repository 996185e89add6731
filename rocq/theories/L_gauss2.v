(** Integrals with a normal density: change of variable, Fourier transform. *)
From Coq Require Import Reals Lra Psatz.
From Coquelicot Require Import Coquelicot.
From Verif Require Import S_rv L_rv L_gauss S_dist.
Local Open Scope R_scope.

(** *** change of variable *)
Lemma gen_subst (f g g' : R -> R) (Fa Fb Ga Gb : (R -> Prop) -> Prop) (v : R) :
  Filter Fa -> Filter Fb -> is_RInt_gen f Ga Gb v -> filterlim g Fa Ga -> filterlim g Fb Gb ->
  (forall x, continuous f x) ->
  filter_prod Fa Fb (fun ab => forall x, Rmin (fst ab) (snd ab) <= x <= Rmax (fst ab) (snd ab) -> is_derive g x (g' x) /\ continuous g' x) ->
  is_RInt_gen (fun x => g' x * f (g x)) Fa Fb v.
Proof.
  intros FA FB I LA LB CF D P HP. specialize (I P HP). unfold filtermapi in *. destruct I as [Q1 Q2 H1 H2 HQ].
  destruct D as [S1 S2 K1 K2 HS]. specialize (LA Q1 H1). specialize (LB Q2 H2). unfold filtermap in LA, LB.
  exists (fun a => Q1 (g a) /\ S1 a) (fun b => Q2 (g b) /\ S2 b); [apply filter_and; auto|apply filter_and; auto|].
  intros a b [A1 A2] [B1 B2]. destruct (HQ _ _ A1 B1) as (y & Iy & Py). exists y. split; auto. cbn [fst snd] in *.
  rewrite <- (is_RInt_unique (V := R_CompleteNormedModule) _ _ _ _ Iy).
  apply (is_RInt_comp (V := R_CompleteNormedModule) f g g' a b); [intros; apply CF|]. intros x X. apply (HS a b A2 B2 x X).
Qed.
Lemma gen_ext (f g : R -> R) (Fa Fb : (R -> Prop) -> Prop) (v w : R) : is_RInt_gen f Fa Fb v ->
  filter_prod Fa Fb (fun ab => forall x, Rmin (fst ab) (snd ab) <= x <= Rmax (fst ab) (snd ab) -> f x = g x) -> v = w ->
  Filter Fa -> Filter Fb -> is_RInt_gen g Fa Fb w.
Proof.
  intros I E <- FA FB. apply (is_RInt_gen_ext (V := R_CompleteNormedModule) f g v); auto. eapply filter_imp; [|exact E].
  intros ab H x X. apply H. lra.
Qed.
Lemma prod_all (Fa Fb : (R -> Prop) -> Prop) (P : R * R -> Prop) : Filter Fa -> Filter Fb -> (forall ab, P ab) -> filter_prod Fa Fb P.
Proof. intros FA FB H. apply filter_forall. auto. Qed.

(** *** Fourier transform *)
Section Fourier.
Variable al : R.
Definition fA (R0 u : R) : R := RInt (fun z => cos (u*z + al)*phi z) 0 R0.
Lemma cos_phi_cont u x : continuous (fun z => cos (u*z + al)*phi z) x.
Proof.
  apply (continuous_mult (K := R_AbsRing) (fun z => cos (u*z + al)) phi); [|apply phi_cont]. apply (ex_derive_continuous (V := R_NormedModule)). auto_derive; auto.
Qed.
Lemma fA_R u R0 : is_derive (fun r => fA r u) R0 (cos (u*R0 + al)*phi R0).
Proof.
  unfold fA. apply (is_derive_RInt (V := R_NormedModule) (fun z => cos (u*z + al)*phi z) (fun r => RInt (fun z => cos (u*z + al)*phi z) 0 r) 0 R0); [|apply cos_phi_cont].
  apply filter_forall. intro r. apply (RInt_correct (V := R_CompleteNormedModule)). apply (ex_RInt_continuous (V := R_CompleteNormedModule)). intros; apply cos_phi_cont.
Qed.
Lemma fA_u R0 u : is_derive (fA R0) u (sin (u*R0 + al)*phi R0 - sin al*phi 0 - u*fA R0 u).
Proof.
  assert (D : forall z v, is_derive (fun w => cos (w*z + al)*phi z) v (- z*sin (v*z + al)*phi z)).
  { intros z v. auto_derive; auto. ring. }
  assert (I : is_RInt (fun z => - z*sin (u*z + al)*phi z) 0 R0 (sin (u*R0 + al)*phi R0 - sin al*phi 0 - u*fA R0 u)).
  { assert (C : forall z, continuous (fun z => - z*sin (u*z + al)*phi z) z).
    { intro z. apply (continuous_mult (K := R_AbsRing) (fun z => - z*sin (u*z + al)) phi); [|apply phi_cont]. apply (ex_derive_continuous (V := R_NormedModule)). auto_derive; auto. }
    replace (sin (u*R0 + al)*phi R0 - sin al*phi 0 - u*fA R0 u) with ((sin (u*R0 + al)*phi R0 - u*fA R0 u) - (sin (u*0 + al)*phi 0 - u*fA 0 u)).
    2: { replace (u*0 + al) with al by ring. unfold fA. rewrite (RInt_point (V := R_CompleteNormedModule)). change (zero : R) with 0. ring. }
    apply (is_RInt_derive (V := R_CompleteNormedModule) (fun r => sin (u*r + al)*phi r - u*fA r u)); intros z _; [|apply C].
    replace (- z*sin (u*z + al)*phi z) with ((u*cos (u*z + al)*phi z + sin (u*z + al)*(- z*phi z)) - u*(cos (u*z + al)*phi z)) by ring.
    apply (is_derive_minus (V := R_NormedModule) (fun r => sin (u*r + al)*phi r) (fun r => u*fA r u)).
    - apply (is_derive_mult (fun r => sin (u*r + al)) phi z (u*cos (u*z + al)) (- z*phi z)); [|apply phi_derive|intros n m; apply Rmult_comm]. auto_derive; auto. ring.
    - apply (is_derive_scal (fun r => fA r u)). apply fA_R. }
  rewrite <- (is_RInt_unique (V := R_CompleteNormedModule) _ _ _ _ I).
  replace (RInt (fun z => - z*sin (u*z + al)*phi z) 0 R0) with (RInt (fun z => Derive (fun w => cos (w*z + al)*phi z) u) 0 R0).
  2: { apply RInt_ext. intros z _. apply is_derive_unique. apply D. }
  apply (is_derive_RInt_param (fun w z => cos (w*z + al)*phi z) 0 R0 u).
  - exists (mkposreal 1 Rlt_0_1). intros y _ t _. eexists. apply D.
  - intros t _. apply continuity_2d_pt_ext with (fun w z => (- z*sin (w*z + al))*phi z).
    + intros w z. symmetry. apply is_derive_unique. apply D.
    + apply continuity_2d_pt_mult.
      * apply continuity_2d_pt_mult; [apply continuity_2d_pt_opp, continuity_2d_pt_id2|].
        apply (continuity_1d_2d_pt_comp sin). { apply derivable_continuous_pt. apply derivable_pt_sin. }
        apply continuity_2d_pt_plus; [|apply continuity_2d_pt_const]. apply continuity_2d_pt_mult; [apply continuity_2d_pt_id1|apply continuity_2d_pt_id2].
      * apply (continuity_1d_2d_pt_comp phi); [|apply continuity_2d_pt_id2]. apply continuity_pt_filterlim. apply phi_cont.
  - exists (mkposreal 1 Rlt_0_1). intros y _. apply (ex_RInt_continuous (V := R_CompleteNormedModule)). intros; apply cos_phi_cont.
Qed.
Definition fD (u : R) : R := RInt (fun w => exp (w*w/2)) 0 u.
Lemma fD_derive u : is_derive fD u (exp (u*u/2)).
Proof.
  assert (C : forall z, continuous (fun w => exp (w*w/2)) z) by (intro z; apply (ex_derive_continuous (V := R_NormedModule)); auto_derive; auto).
  apply (is_derive_RInt (V := R_NormedModule) (fun w => exp (w*w/2)) fD 0 u); [|apply C].
  apply filter_forall. intro r. apply (RInt_correct (V := R_CompleteNormedModule)). apply (ex_RInt_continuous (V := R_CompleteNormedModule)). intros; apply C.
Qed.
Definition fW (R0 u : R) : R := fA R0 u*exp (u*u/2) + sin al*phi 0*fD u.
Lemma fW_derive R0 u : is_derive (fW R0) u (exp (u*u/2)*(sin (u*R0 + al)*phi R0)).
Proof.
  unfold fW. replace (exp (u*u/2)*(sin (u*R0 + al)*phi R0)) with
    (((sin (u*R0 + al)*phi R0 - sin al*phi 0 - u*fA R0 u)*exp (u*u/2) + fA R0 u*(u*exp (u*u/2))) + sin al*phi 0*exp (u*u/2)) by ring.
  apply (is_derive_plus (V := R_NormedModule) (fun u => fA R0 u*exp (u*u/2)) (fun u => sin al*phi 0*fD u)).
  - apply (is_derive_mult (fA R0) (fun u => exp (u*u/2)) u _ (u*exp (u*u/2))); [apply fA_u| |intros n m; apply Rmult_comm]. auto_derive; auto. unfold Rdiv. field.
  - apply (is_derive_scal fD). apply fD_derive.
Qed.
Lemma phi_pos z : 0 < phi z.
Proof. unfold phi. pose proof PI_RGT_0. apply Rdiv_lt_0_compat; [apply exp_pos|apply sqrt_lt_R0; lra]. Qed.
Lemma fW_bound R0 u : Rabs (fW R0 u - fW R0 0) <= phi R0*(exp (u*u/2)*Rabs u).
Proof.
  destruct (MVT_gen (fW R0) 0 u (fun v => exp (v*v/2)*(sin (v*R0 + al)*phi R0))) as (c & [C1 C2] & E).
  - intros x _. apply fW_derive.
  - intros x _. apply continuity_pt_filterlim. apply (ex_derive_continuous (V := R_NormedModule)). eexists. apply fW_derive.
  - rewrite E, Rminus_0_r, !Rabs_mult, (Rabs_right (exp _)) by (left; apply exp_pos). rewrite (Rabs_right (phi R0)) by (left; apply phi_pos).
    assert (S : Rabs (sin (c*R0 + al)) <= 1) by (apply Rabs_le; apply SIN_bound).
    assert (X : exp (c*c/2) <= exp (u*u/2)).
    { assert (H : c*c <= u*u). { destruct (Rle_dec 0 u); [rewrite Rmin_left, Rmax_right in * by lra|rewrite Rmin_right, Rmax_left in * by lra]; nra. }
      destruct (Req_dec (c*c) (u*u)) as [->|]; [lra|left; apply exp_increasing; lra]. }
    pose proof (exp_pos (c*c/2)). pose proof (phi_pos R0). pose proof (Rabs_pos u). pose proof (Rabs_pos (sin (c*R0 + al))).
    replace (phi R0*(exp (u*u/2)*Rabs u)) with (exp (u*u/2)*(1*phi R0)*Rabs u) by ring.
    apply Rmult_le_compat_r; auto. apply Rmult_le_compat; try lra; [|apply Rmult_le_compat_r; lra]. apply Rmult_le_pos; lra.
Qed.
Lemma fA_0 R0 : fA R0 0 = cos al*Phi R0.
Proof.
  unfold fA. apply is_RInt_unique. replace (cos al*Phi R0) with (cos al*Phi R0 - cos al*Phi 0).
  2: { unfold Phi. replace (0/sqrt 2) with 0 by (unfold Rdiv; ring). unfold G. rewrite (RInt_point (V := R_CompleteNormedModule)). change (zero : R) with 0. unfold Rdiv. ring. }
  apply (is_RInt_derive (V := R_CompleteNormedModule) (fun z => cos al*Phi z)); intros z _; [|apply cos_phi_cont].
  replace (0*z + al) with al by ring. apply (is_derive_scal Phi). apply Phi_derive.
Qed.
Lemma fA_lim (b : Rbar) (l : R) u : is_lim phi b 0 -> is_lim Phi b l ->
  is_lim (fun r => fA r u) b (exp (- (u*u/2))*(cos al*l - sin al*phi 0*fD u)).
Proof.
  intros LP LF. assert (L : is_lim (fun r => fW r u) b (cos al*l)).
  { apply is_lim_ext with (fun r => fW r 0 + (fW r u - fW r 0)); [intro r; ring|]. replace (cos al*l) with (cos al*l + 0) by ring. apply is_lim_plus'.
    - apply is_lim_ext with (fun r => cos al*Phi r).
      + intro r. unfold fW. rewrite fA_0. replace (0*0/2) with 0 by field. rewrite exp_0. unfold fD. rewrite (RInt_point (V := R_CompleteNormedModule)). change (zero : R) with 0. ring.
      + change (Finite (cos al*l)) with (Rbar_mult (cos al) l). apply is_lim_scal_l. auto.
    - assert (B : is_lim (fun r => phi r*(exp (u*u/2)*Rabs u)) b 0).
      { replace (Finite 0) with (Rbar_mult 0 (exp (u*u/2)*Rabs u)) by (simpl; f_equal; ring). apply is_lim_scal_r. auto. }
      apply is_lim_le_le_loc with (fun r => - (phi r*(exp (u*u/2)*Rabs u))) (fun r => phi r*(exp (u*u/2)*Rabs u)); auto.
      + apply filter_forall. intro r. pose proof (fW_bound r u) as H. apply Rabs_le_between in H. exact H.
      + replace (Finite 0) with (Rbar_opp 0) by (simpl; f_equal; ring). apply is_lim_opp. auto. }
  apply is_lim_ext with (fun r => exp (- (u*u/2))*(fW r u - sin al*phi 0*fD u)).
  - intro r. unfold fW. replace (exp (- (u*u/2))*(fA r u*exp (u*u/2) + sin al*phi 0*fD u - sin al*phi 0*fD u)) with (exp (- (u*u/2))*exp (u*u/2)*fA r u) by ring.
    rewrite <- exp_plus. replace (- (u*u/2) + u*u/2) with 0 by ring. rewrite exp_0. ring.
  - change (Finite (exp (- (u*u/2))*(cos al*l - sin al*phi 0*fD u))) with (Rbar_mult (exp (- (u*u/2))) (cos al*l - sin al*phi 0*fD u)). apply is_lim_scal_l.
    apply is_lim_minus'; [exact L|apply is_lim_const].
Qed.
Lemma phi_lims : is_lim phi p_infty 0 /\ is_lim phi m_infty 0.
Proof.
  split; [apply is_lim_ext with (fun z => (1 + 0*z)*phi z); [intro; ring|apply phi_lim]|apply is_lim_ext with (fun z => (1 + 0*z)*phi z); [intro; ring|apply phi_lim_m]].
Qed.
Theorem mean_normal_cos u : mean_normal (fun z => cos (u*z + al)) (cos al*exp (- (u*u/2))).
Proof.
  unfold mean_normal. change (is_RInt_gen (fun z => cos (u*z + al)*phi z) (Rbar_locally m_infty) (Rbar_locally p_infty) (cos al*exp (- (u*u/2)))).
  replace (cos al*exp (- (u*u/2))) with (exp (- (u*u/2))*(cos al*(1/2) - sin al*phi 0*fD u) - exp (- (u*u/2))*(cos al*(- (1/2)) - sin al*phi 0*fD u)) by field.
  destruct phi_lims as [L1 L2]. apply (integral_line _ (fun r => fA r u)); [intro; apply fA_R|apply cos_phi_cont| |].
  - apply fA_lim; auto. apply Phi_lim_m.
  - apply fA_lim; auto. apply Phi_lim.
Qed.
End Fourier.
Lemma mean_normal_sin u be : mean_normal (fun z => sin (u*z + be)) (sin be*exp (- (u*u/2))).
Proof.
  pose proof (mean_normal_cos (be - PI/2) u) as H. replace (cos (be - PI/2)) with (sin be) in H.
  2: { rewrite cos_minus, cos_PI2, sin_PI2. ring. }
  unfold mean_normal in *. eapply (is_RInt_gen_ext (V := R_CompleteNormedModule)); [|exact H]. apply filter_forall. intros ab z _.
  replace (u*z + (be - PI/2)) with ((u*z + be) - PI/2) by ring. rewrite cos_minus, cos_PI2, sin_PI2. match goal with |- ?a = ?b => change (@eq R a b) end. ring.
Qed.
