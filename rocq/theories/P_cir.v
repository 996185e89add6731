(** Properties of the density of the Cox-Ingersoll-Ross process: C69. *)
From Coq Require Import String List Arith Bool Reals Lra Lia Psatz.
From Coquelicot Require Import Coquelicot.
From Verif Require Import Base M_sde M_presets M_analytical S_analytical L_coefs L_complex L_gauss2 M_dist S_dist L_dist S_cir L_gamma L_cir P_moments.
Local Open Scope R_scope.

Section Cir.
Variables x0 theta k xi : R.
Hypothesis X0 : 0 < x0.
Hypothesis KT : 0 < k*theta.
Hypothesis XI : xi <> 0.
Definition al (t : R) : R := exp (- k*t).
Definition cc (t : R) : R := 2*k/(1 - al t)/(xi*xi).
Definition qq : R := 2*k*theta/(xi*xi) - 1.
Definition uu (t : R) : R := cc t*(x0*al t).
Lemma k_ne : k <> 0. Proof. intro H. rewrite H, Rmult_0_l in KT. lra. Qed.
Lemma xi2 : 0 < xi*xi. Proof. nra. Qed.
Lemma q_gt : -1 < qq.
Proof. unfold qq. assert (0 < 2*k*theta/(xi*xi)) by (apply Rdiv_lt_0_compat; [lra|apply xi2]). lra. Qed.
Lemma al_pos t : 0 < al t. Proof. apply exp_pos. Qed.
Lemma al_k t : 0 < t -> 0 < k*(1 - al t).
Proof.
  intro T. unfold al. destruct (Rtotal_order k 0) as [N|[N|N]]; [|destruct (k_ne N)|].
  - assert (1 < exp (- k*t)) by (rewrite <- exp_0; apply exp_increasing; nra). nra.
  - assert (exp (- k*t) < 1) by (rewrite <- exp_0; apply exp_increasing; nra). nra.
Qed.
Lemma al_ne t : 0 < t -> 1 - al t <> 0. Proof. intros T H. pose proof (al_k t T). rewrite H in *. lra. Qed.
Lemma cc_pos t : 0 < t -> 0 < cc t.
Proof.
  intro T. unfold cc. apply Rdiv_lt_0_compat; [|apply xi2]. pose proof (al_k t T). pose proof (al_ne t T).
  replace (2*k/(1 - al t)) with (2*(k*(1 - al t))/((1 - al t)*(1 - al t))) by (field; auto). apply Rdiv_lt_0_compat; [lra|]. nra.
Qed.
Lemma uu_pos t : 0 < t -> 0 < uu t.
Proof. intro T. apply Rmult_lt_0_compat; [apply cc_pos; auto|]. apply Rmult_lt_0_compat; auto. apply al_pos. Qed.
Lemma al_dt t : is_derive al t (- k*al t).
Proof. unfold al. auto_derive; auto. ring. Qed.
Lemma cc_dt t : 0 < t -> is_derive cc t (- (cc t*(k*al t/(1 - al t)))).
Proof.
  intro T. pose proof (al_ne t T). pose proof xi2. unfold cc, al in *. auto_derive; [repeat split; auto; nra|]. field. split; auto; nra.
Qed.

Section Density.
Variable gamma : R -> R.
Variable iv : R -> R -> R.
Hypothesis G : euler_gamma gamma.
Hypothesis B : bessel_i gamma iv.
Notation S0 := (bS gamma qq).
Notation S1 := (bS1 gamma qq).
Notation S2 := (bS2 gamma qq).
Definition pp (t x : R) : R := dens gamma qq (cc t) (uu t) x.
Lemma pdf_form t x : 0 < t -> 0 < x -> cir_pdf iv x0 theta k xi t x = Some (pp t x).
Proof.
  intros T X. unfold cir_pdf. fold (al t). fold qq. cbv zeta. fold (cc t). pose proof (cc_pos t T) as C. pose proof (al_pos t) as A.
  assert (XA : 0 < x0*al t) by nra. assert (XD : 0 < x/(x0*al t)) by (apply Rdiv_lt_0_compat; auto).
  unfold np_power. destruct (Rlt_dec 0 (x/(x0*al t))) as [_|N]; [|contradiction]. f_equal.
  set (w := cc t*uu t*x). assert (W : 0 < w) by (apply Rmult_lt_0_compat; auto; apply Rmult_lt_0_compat; auto; apply uu_pos; auto).
  replace (2*cc t*sqrt (x*x0*al t)) with (2*sqrt w).
  2: { unfold w, uu. replace (cc t*(cc t*(x0*al t))*x) with (cc t*cc t*(x*x0*al t)) by ring. rewrite sqrt_mult, sqrt_square by nra. ring. }
  rewrite (bessel_form gamma G qq q_gt iv w B W). unfold pp, dens. fold w.
  replace (- cc t*(x0*al t + x)) with (- (uu t + cc t*x)) by (unfold uu; ring).
  assert (E : Rpower (x/(x0*al t)) (qq/2)*Rpower w (qq/2) = Rpower (cc t*x) qq).
  { rewrite Rpower_mult_distr by auto. replace (x/(x0*al t)*w) with (cc t*x*(cc t*x)) by (unfold w, uu; field; lra).
    assert (0 < cc t*x) by nra. rewrite <- Rpower_mult_distr by auto. rewrite <- Rpower_plus. f_equal. field. }
  rewrite <- E. ring.
Qed.
Lemma mean_form t : 0 < t -> (uu t + qq + 1)/cc t = cir_mean x0 theta k xi t.
Proof.
  intro T. pose proof (al_ne t T). pose proof k_ne. unfold cir_mean. fold (al t). unfold uu, qq, cc. field. auto.
Qed.
Lemma var_form t : 0 < t ->
  (uu t*uu t + uu t + (2*qq + 3)*uu t + (qq + 1)*(qq + 2))/(cc t*cc t) - cir_mean x0 theta k xi t*cir_mean x0 theta k xi t = cir_var x0 theta k xi t.
Proof.
  intro T. pose proof (al_ne t T). pose proof k_ne. unfold cir_mean, cir_var. fold (al t). unfold uu, qq, cc. field. auto.
Qed.

(** *** forward equation *)
Definition gg (t x : R) : R := cc t*exp (- (uu t + cc t*x))*Rpower (cc t*x) qq.
Definition ww (t x : R) : R := cc t*uu t*x.
Definition lx (t x : R) : R := - cc t + qq/x.
Lemma gg_dx t x : 0 < t -> 0 < x -> is_derive (gg t) x (gg t x*lx t x).
Proof.
  intros T X. unfold gg, lx, Rpower. pose proof (cc_pos t T). auto_derive; [nra|]. field. split; lra.
Qed.
Lemma lx_dx t x : 0 < x -> is_derive (lx t) x (- (qq/(x*x))).
Proof. intro X. unfold lx. auto_derive; [lra|]. field. lra. Qed.
Lemma ww_dx t x : is_derive (ww t) x (cc t*uu t). Proof. unfold ww. auto_derive; auto. ring. Qed.
Definition px (t x : R) : R := gg t x*lx t x*S0 (ww t x) + gg t x*(cc t*uu t*S1 (ww t x)).
Definition pxx (t x : R) : R :=
  gg t x*((lx t x*lx t x - qq/(x*x))*S0 (ww t x) + 2*lx t x*(cc t*uu t)*S1 (ww t x) + cc t*uu t*(cc t*uu t)*S2 (ww t x)).
Lemma dmult (f g : R -> R) x l m : is_derive f x l -> is_derive g x m -> is_derive (fun z => f z*g z) x (l*g x + f x*m).
Proof. intros F K. apply (is_derive_mult (K := R_AbsRing) f g x l m F K). intros. apply Rmult_comm. Qed.
Lemma pp_dx t x : 0 < t -> 0 < x -> is_derive (pp t) x (px t x).
Proof.
  intros T X. unfold pp, dens. fold (gg t). unfold px.
  apply (dmult (gg t) (fun x => S0 (ww t x))); [apply gg_dx; auto|]. apply (dcomp S0 (ww t)); [apply ww_dx|apply bS_derive; auto; apply q_gt].
Qed.
Lemma px_dx t x : 0 < t -> 0 < x -> is_derive (px t) x (pxx t x).
Proof.
  intros T X. unfold px. eapply deq; [apply (is_derive_plus (V := R_NormedModule) (fun z => gg t z*lx t z*S0 (ww t z)) (fun z => gg t z*(cc t*uu t*S1 (ww t z))))|].
  - apply (dmult (fun z => gg t z*lx t z) (fun z => S0 (ww t z))); [apply dmult; [apply gg_dx; auto|apply lx_dx; auto]|].
    apply (dcomp S0 (ww t)); [apply ww_dx|apply bS_derive; auto; apply q_gt].
  - apply (dmult (gg t) (fun z => cc t*uu t*S1 (ww t z))); [apply gg_dx; auto|].
    apply (is_derive_scal (fun z => S1 (ww t z))). apply (dcomp S1 (ww t)); [apply ww_dx|apply bS1_derive; auto; apply q_gt].
  - unfold pxx, plus. simpl. ring.
Qed.
Definition dc (t : R) : R := - (cc t*(k*al t/(1 - al t))).
Definition du (t : R) : R := dc t*(x0*al t) + cc t*(x0*(- k*al t)).
Lemma uu_dt t : 0 < t -> is_derive uu t (du t).
Proof.
  intro T. unfold uu, du. apply (dmult cc (fun t => x0*al t)); [apply cc_dt; auto|]. apply (is_derive_scal al). apply al_dt.
Qed.
Definition pt (t x : R) : R :=
  gg t x*((dc t/cc t - (du t + dc t*x) + qq*(dc t/cc t))*S0 (ww t x) + (dc t*uu t + cc t*du t)*x*S1 (ww t x)).
Lemma pp_dt t x : 0 < t -> 0 < x -> is_derive (fun s => pp s x) t (pt t x).
Proof.
  intros T X. pose proof (cc_pos t T). unfold pp, dens.
  eapply deq; [apply (dmult (fun s => gg s x) (fun s => S0 (ww s x)))|].
  - unfold gg. apply (dmult (fun s => cc s*exp (- (uu s + cc s*x))) (fun s => Rpower (cc s*x) qq)).
    + apply (dmult cc (fun s => exp (- (uu s + cc s*x)))); [apply cc_dt; auto|].
      apply (dcomp exp (fun s => - (uu s + cc s*x)) t (- (du t + dc t*x))); [|apply is_derive_exp].
      apply (is_derive_opp (V := R_NormedModule)). apply (is_derive_plus (V := R_NormedModule)); [apply uu_dt; auto|].
      eapply deq; [apply (is_derive_scal_l (V := R_NormedModule) cc t (dc t) x); apply cc_dt; auto|]. reflexivity.
    + apply (dcomp (fun z => Rpower z qq) (fun s => cc s*x) t (dc t*x)); [|apply rpow_dx; nra].
      eapply deq; [apply (is_derive_scal_l (V := R_NormedModule) cc t (dc t) x); apply cc_dt; auto|]. reflexivity.
  - apply (dcomp S0 (fun s => ww s x) t ((dc t*uu t + cc t*du t)*x)); [|apply bS_derive; auto; apply q_gt].
    unfold ww. eapply deq; [apply (is_derive_scal_l (V := R_NormedModule) (fun s => cc s*uu s) t (dc t*uu t + cc t*du t) x); apply dmult; [apply cc_dt|apply uu_dt]; auto|]. reflexivity.
  - unfold pt, gg. fold (dc t). rewrite (rpow_succ (cc t*x) qq) by nra. field. lra.
Qed.
Lemma forward_eq t x : 0 < t -> 0 < x ->
  pt t x = - (- k*pp t x + k*(theta - x)*px t x) + xi*xi*(2*px t x + x*pxx t x)/2.
Proof.
  intros T X. unfold pt, px, pxx. change (pp t x) with (gg t x*S0 (ww t x)).
  pose proof (bS_ode gamma G qq q_gt (ww t x)) as O. pose proof (cc_pos t T). pose proof (uu_pos t T).
  assert (E : cc t*uu t*(cc t*uu t)*S2 (ww t x) = cc t*uu t/x*(S0 (ww t x) - (qq + 1)*S1 (ww t x))) by (rewrite <- O; unfold ww; field; lra).
  rewrite E. set (s0 := S0 (ww t x)). set (s1 := S1 (ww t x)). clearbody s0 s1. clear E O.
  pose proof (al_ne t T). pose proof k_ne. pose proof xi2. pose proof (al_pos t).
  unfold dc, du, lx, dc, uu, qq. unfold cc. field. repeat split; auto; try lra.
Qed.

Lemma near_pos (x : R) (P : R -> Prop) : 0 < x -> (forall z, 0 < z -> P z) -> locally x P.
Proof.
  intros X H. exists (mkposreal x X). intros z Z. apply H. unfold ball in Z. simpl in Z. unfold AbsRing_ball, abs, minus, plus, opp in Z. simpl in Z.
  apply Rabs_def2 in Z. lra.
Qed.
Lemma forward_holds a b t x : (forall z, a z = k*(theta - Rmax z 0)) -> (forall z, b z = xi*sqrt (Rmax z 0)) -> 0 < t -> 0 < x ->
  forward_pos a b pp t x.
Proof.
  intros HA HB T X.
  assert (PX : forall z, 0 < z -> is_derive (fun z => z*pp t z) z (pp t z + z*px t z)).
  { intros z Z. apply (deq _ z (1*pp t z + z*px t z)); [|ring]. apply (dmult (fun z => z) (pp t) z 1); [apply (is_derive_id (K := R_AbsRing))|apply pp_dx; auto]. }
  assert (B2 : forall y v, 0 < y -> b y^2*v = xi*xi*(y*v)).
  { intros y v Y. rewrite HB, Rmax_left by lra. replace ((xi*sqrt y)^2) with (xi*xi*(sqrt y*sqrt y)) by ring. rewrite sqrt_sqrt by lra. ring. }
  exists (pt t x), (- k*pp t x + k*(theta - x)*px t x), (xi*xi*(2*px t x + x*pxx t x)), (fun z => xi*xi*(pp t z + z*px t z)).
  split; [apply pp_dt; auto|]. split; [|split; [|split]].
  - apply (is_derive_ext_loc (fun z => k*(theta - z)*pp t z)).
    + apply near_pos; auto. intros z Z. rewrite HA, Rmax_left by lra. reflexivity.
    + apply (dmult (fun z => k*(theta - z)) (pp t)); [|apply pp_dx; auto]. auto_derive; auto. ring.
  - intros z Z. apply (is_derive_ext_loc (fun z => xi*xi*(z*pp t z))).
    + apply near_pos; auto. intros y Y. symmetry. apply B2. auto.
    + apply (is_derive_scal (fun z => z*pp t z)). apply PX. auto.
  - apply (is_derive_scal (fun z => pp t z + z*px t z)). apply (deq _ x (px t x + (1*px t x + x*pxx t x))); [|ring].
    apply (is_derive_plus (V := R_NormedModule) (pp t) (fun z => z*px t z)); [apply pp_dx; auto|].
    apply (dmult (fun z => z) (px t) x 1); [apply (is_derive_id (K := R_AbsRing))|apply px_dx; auto].
  - apply forward_eq; auto.
Qed.
End Density.

(** *** the Laplace transform of the law *)
Section Laplace.
Variable s : R.
Hypothesis S : 0 <= s.
Definition dd (t : R) : R := 1 + s*(xi*xi)*((1 - al t)/k)/2.
Definition bb (t : R) : R := s*al t/dd t.
Definition lap (t x : R) : R := exp (- ((qq + 1)*ln (dd t) + x*bb t)).
Lemma ratio_pos t : 0 <= t -> 0 <= (1 - al t)/k.
Proof.
  intros [T|<-].
  - pose proof (al_k t T). pose proof k_ne. replace ((1 - al t)/k) with (k*(1 - al t)/(k*k)) by (field; auto). left. apply Rdiv_lt_0_compat; nra.
  - unfold al. rewrite Rmult_0_r, exp_0. unfold Rdiv. rewrite Rminus_diag_eq, Rmult_0_l by auto. lra.
Qed.
Lemma dd_ge t : 0 <= t -> 1 <= dd t.
Proof. intro T. unfold dd. pose proof (ratio_pos t T). pose proof xi2. assert (0 <= s*(xi*xi)*((1 - al t)/k)) by (apply Rmult_le_pos; nra). lra. Qed.
Lemma bb_ge t : 0 <= t -> 0 <= bb t.
Proof. intro T. unfold bb. pose proof (dd_ge t T). pose proof (al_pos t). apply Rmult_le_pos; [nra|]. left. apply Rinv_0_lt_compat. lra. Qed.
Lemma lap_start x : lap 0 x = exp (- (s*x)).
Proof.
  unfold lap, bb, dd, al. rewrite Rmult_0_r, exp_0. replace ((1 - 1)/k) with 0 by (unfold Rdiv; ring). rewrite Rmult_0_r.
  replace (1 + 0/2) with 1 by field. rewrite ln_1. f_equal. field.
Qed.
Lemma lap_mix t : 0 < t -> Rpower (cc t/(cc t + s)) (qq + 1)*exp (- (uu t*s/(cc t + s))) = lap t x0.
Proof.
  intro T. pose proof (cc_pos t T). pose proof (dd_ge t ltac:(lra)). pose proof (al_ne t T). pose proof k_ne. pose proof xi2.
  assert (E : cc t + s = cc t*dd t) by (unfold dd, cc; field; auto).
  rewrite E. replace (cc t/(cc t*dd t)) with (/dd t) by (field; lra). unfold Rpower, lap. rewrite ln_Rinv by lra. rewrite <- exp_plus. f_equal.
  unfold bb, uu. field. lra.
Qed.
Lemma lap_le t x : 0 <= t -> 0 <= x -> 0 <= lap t x <= 1.
Proof.
  intros T X. split; [left; apply exp_pos|]. unfold lap. pose proof q_gt. pose proof (dd_ge t T). pose proof (bb_ge t T).
  assert (0 <= ln (dd t)) by (rewrite <- ln_1; destruct (Rle_lt_or_eq_dec 1 (dd t)); auto; [left; apply ln_increasing; lra|rewrite <- e; lra]).
  assert (0 <= (qq + 1)*ln (dd t) + x*bb t) by (apply Rplus_le_le_0_compat; apply Rmult_le_pos; lra).
  set (e := (qq + 1)*ln (dd t) + x*bb t) in *. rewrite exp_Ropp. rewrite <- Rinv_1. apply Rinv_le_contravar; [lra|]. pose proof (exp_ineq1_le e). lra.
Qed.
Definition bb' (t : R) : R := - k*bb t - xi*xi*(bb t*bb t)/2.
Lemma dd_dt t : is_derive dd t (s*(xi*xi)*al t/2).
Proof. unfold dd, al. pose proof k_ne. auto_derive; auto. field. auto. Qed.
Lemma bb_dt t : 0 <= t -> is_derive bb t (bb' t).
Proof.
  intro T. pose proof (dd_ge t T). unfold bb. eapply deq; [apply (is_derive_div (fun t => s*al t) dd t _ _ (is_derive_scal al t s _ (al_dt t)) (dd_dt t)); lra|].
  unfold bb', bb. field. lra.
Qed.
Lemma lap_dt t x : 0 <= t -> is_derive (fun t => lap t x) t ((- (k*theta)*bb t - x*bb' t)*lap t x).
Proof.
  intro T. pose proof (dd_ge t T). unfold lap. eapply deq.
  - apply (dcomp exp (fun t => - ((qq + 1)*ln (dd t) + x*bb t)) t (- ((qq + 1)*(s*(xi*xi)*al t/2*/dd t) + x*bb' t))); [|apply is_derive_exp].
    apply (is_derive_opp (V := R_NormedModule)). apply (is_derive_plus (V := R_NormedModule)).
    + apply (is_derive_scal (fun t => ln (dd t))). apply (dcomp ln dd); [apply dd_dt|]. apply is_derive_Reals. apply derivable_pt_lim_ln. lra.
    + apply (is_derive_scal bb). apply bb_dt. auto.
  - pose proof xi2. f_equal. unfold bb, qq. field. split; auto; lra.
Qed.
Lemma lap_dx t x : is_derive (lap t) x (- bb t*lap t x).
Proof. unfold lap. auto_derive; auto. ring. Qed.
Lemma lap_dxx t x : is_derive (fun x => - bb t*lap t x) x (bb t*bb t*lap t x).
Proof. eapply deq; [apply (is_derive_scal (lap t)); apply lap_dx|]. ring. Qed.
Lemma cont_of (f : R -> R) t l : is_derive f t l -> continuity_pt f t.
Proof. intro D. apply derivable_continuous_pt. exists l. apply is_derive_Reals. exact D. Qed.
Lemma bb'_cont t : 0 <= t -> continuity_pt bb' t.
Proof.
  intro T. pose proof (cont_of _ _ _ (bb_dt t T)) as C. unfold bb'. apply continuity_pt_minus.
  - apply (continuity_pt_scal bb (- k)); auto.
  - unfold Rdiv. apply (continuity_pt_mult (fun t => xi*xi*(bb t*bb t)) (fun _ => /2)); [|apply continuity_pt_const; intros ? ?; reflexivity].
    apply (continuity_pt_scal (fun t => bb t*bb t) (xi*xi)). apply (continuity_pt_mult bb bb); auto.
Qed.
Section Law.
Variables (a b : R -> R) (T : R).
Hypothesis HA : forall z, a z = k*(theta - Rmax z 0).
Hypothesis HB : forall z, b z = xi*sqrt (Rmax z 0).
Lemma T_minus (f : R -> R) t x : t <= T -> (forall z, 0 <= z -> continuity_pt f z) -> continuity_2d_pt (fun t x => f (T - t)) t x.
Proof.
  intros H C. apply (continuity_1d_2d_pt_comp f (fun t x => T - t)); [apply C; lra|].
  apply continuity_2d_pt_minus; [apply continuity_2d_pt_const|apply continuity_2d_pt_id1].
Qed.
Lemma lap_cont t x : t <= T -> continuity_2d_pt (fun t x => lap (T - t) x) t x.
Proof.
  intro H. unfold lap. apply (continuity_1d_2d_pt_comp exp (fun t x => - ((qq + 1)*ln (dd (T - t)) + x*bb (T - t)))); [apply derivable_continuous, derivable_exp|].
  apply continuity_2d_pt_opp. apply continuity_2d_pt_plus.
  - apply continuity_2d_pt_mult; [apply continuity_2d_pt_const|]. apply (T_minus (fun t => ln (dd t))); auto. intros z Z.
    pose proof (dd_ge z Z). apply (cont_of _ _ (s*(xi*xi)*al z/2*/dd z)). apply (dcomp ln dd); [apply dd_dt|]. apply is_derive_Reals, derivable_pt_lim_ln. lra.
  - apply continuity_2d_pt_mult; [apply continuity_2d_pt_id2|]. apply (T_minus bb); auto. intros z Z. eapply cont_of. apply bb_dt. auto.
Qed.
Lemma lap_harmonic : harmonic1 nonneg a b T (fun t x => lap (T - t) x).
Proof.
  exists (fun t x => - ((- (k*theta)*bb (T - t) - x*bb' (T - t))*lap (T - t) x)), (fun t x => - bb (T - t)*lap (T - t) x), (fun t x => bb (T - t)*bb (T - t)*lap (T - t) x).
  intros t x [T0 T1] X. unfold nonneg in X. split; [|split; [apply lap_dx|split; [apply lap_dxx|split; [apply lap_cont; auto|split]]]].
  - eapply deq; [apply (dcomp (fun t => lap t x) (fun t => T - t) t (-1)); [auto_derive; auto; ring|apply lap_dt; lra]|]. ring.
  - apply continuity_2d_pt_opp. apply continuity_2d_pt_mult; [|apply lap_cont; auto]. apply continuity_2d_pt_minus; apply continuity_2d_pt_mult.
    + apply continuity_2d_pt_const.
    + apply (T_minus bb); auto. intros z Z. eapply cont_of. apply bb_dt. auto.
    + apply continuity_2d_pt_id2.
    + apply (T_minus bb'); auto. apply bb'_cont.
  - unfold gen1. rewrite HA, HB, cir_b, Rmax_left by auto. unfold bb'. field.
Qed.
Lemma lap_law E : 0 <= T -> law1 nonneg a b x0 T E -> E (fun x => exp (- (s*x))) = lap T x0.
Proof.
  intros HT [[_ [_ EX]] L]. pose proof (L (fun t x => lap (T - t) x) 1) as Q. cbv beta in Q. rewrite Rminus_0_r in Q. rewrite <- Q.
  - apply EX. intros x _. rewrite Rminus_diag_eq by auto. symmetry. apply lap_start.
  - intros t x [T0 T1] X. destruct (lap_le (T - t) x ltac:(lra) X). rewrite Rabs_right; lra.
  - apply lap_harmonic.
Qed.
End Law.
End Laplace.
End Cir.

(** the function cir_pdf is the density at time t of the solution of the equation of cox_ingersoll_ross_process: it is positive with
    integral 1, its mean and variance are those given by cir_mean and cir_var, and it satisfies the forward equation with the coefficients
    that the method sde returns *)
Theorem C69_density gamma iv x0 theta k xi a b : euler_gamma gamma -> bessel_i gamma iv -> 0 < x0 -> 0 < k*theta -> xi <> 0 ->
  coef cir_sde (cir_args theta k xi) "dt" a -> coef cir_sde (cir_args theta k xi) "dw" b ->
  exists p : R -> R -> R,
    (forall t x, 0 < t -> 0 < x -> cir_pdf iv x0 theta k xi t x = Some (p t x) /\ 0 < p t x) /\
    (forall t, 0 < t -> half_line (p t) 1 /\ moments half_line (p t) (cir_mean x0 theta k xi t) (cir_var x0 theta k xi t)) /\
    (forall t x, 0 < t -> 0 < x -> forward_pos a b p t x).
Proof.
  intros G B X0 KT XI CA CB. pose proof (coef_fun _ _ _ _ _ CA (cir_dt theta k xi)) as HA. pose proof (coef_fun _ _ _ _ _ CB (cir_dw theta k xi)) as HB.
  pose proof (q_gt theta k xi KT XI) as Q.
  exists (pp x0 theta k xi gamma). split; [|split].
  - intros t x T X. split; [apply pdf_form; auto|]. apply dens_pos; auto; [apply (cc_pos theta); auto|apply (uu_pos x0 theta); auto].
  - intros t T. pose proof (cc_pos theta k xi KT XI t T) as C. pose proof (uu_pos x0 theta k xi X0 KT XI t T) as U.
    pose proof (dens_one gamma G _ Q _ _ C U) as I0. pose proof (dens_first gamma G _ Q _ _ C U) as I1. pose proof (dens_second gamma G _ Q _ _ C U) as I2.
    rewrite (mean_form x0 theta k xi KT XI t T) in I1. split; [exact I0|]. split; [exact I1|]. set (m := cir_mean x0 theta k xi t) in *.
    eapply half_eq; [eapply half_ext; [apply half_plus; [exact I2|apply half_plus; [apply (half_scal _ _ (-2*m) I1)|apply (half_scal _ _ (m*m) I0)]]|]|].
    + intros x X. cbv beta. unfold pp. ring.
    + rewrite <- (var_form x0 theta k xi KT XI t T). fold m. ring.
  - intros t x T X. apply forward_holds; auto.
Qed.
Print Assumptions C69_density.

(** the law of the solution: for any law of it, at any time, integrals of exp(-sx) with cir_pdf are expected values, and as t tends to 0
    they tend to exp(-s x0) *)
Theorem C69_law gamma iv x0 theta k xi a b s : euler_gamma gamma -> bessel_i gamma iv -> 0 < x0 -> 0 < k*theta -> xi <> 0 -> 0 <= s ->
  coef cir_sde (cir_args theta k xi) "dt" a -> coef cir_sde (cir_args theta k xi) "dw" b ->
  exists (p : R -> R -> R) (L : R -> R),
    (forall t x, 0 < t -> 0 < x -> cir_pdf iv x0 theta k xi t x = Some (p t x)) /\
    (forall t, 0 < t -> half_line (fun x => exp (- (s*x))*p t x) (L t)) /\
    (forall t E, 0 < t -> law1 nonneg a b x0 t E -> E (fun x => exp (- (s*x))) = L t) /\
    filterlim L (at_right 0) (locally (exp (- (s*x0)))).
Proof.
  intros G B X0 KT XI S CA CB. pose proof (coef_fun _ _ _ _ _ CA (cir_dt theta k xi)) as HA. pose proof (coef_fun _ _ _ _ _ CB (cir_dw theta k xi)) as HB.
  pose proof (q_gt theta k xi KT XI) as Q.
  exists (pp x0 theta k xi gamma), (fun t => lap theta k xi s t x0). split; [intros; apply pdf_form; auto|split; [|split]].
  - intros t T. rewrite <- lap_mix by auto. apply dens_laplace; auto; [apply (cc_pos theta); auto|apply (uu_pos x0 theta); auto|].
    pose proof (cc_pos theta k xi KT XI t T). lra.
  - intros t E T H. apply (lap_law x0 theta k xi KT XI s S a b t HA HB E); auto. lra.
  - apply right_cont; [|apply lap_start]. apply (ex_derive_continuous (V := R_NormedModule)). eexists. apply lap_dt; auto. lra.
Qed.
Print Assumptions C69_law.

(** such gamma and iv exist, and so do laws: with theta = 0 the solution that starts from 0 stays there *)
Theorem C69_exists : (exists gamma iv, euler_gamma gamma /\ bessel_i gamma iv) /\
  (forall k xi a b t, coef cir_sde (cir_args 0 k xi) "dt" a -> coef cir_sde (cir_args 0 k xi) "dw" b -> 0 <= t -> law1 nonneg a b 0 t (fun f => f 0)).
Proof.
  split.
  - destruct gamma_exists as [gamma G]. destruct (bessel_exists gamma G) as [iv B]. exists gamma, iv. auto.
  - intros k xi a b t CA CB T. pose proof (coef_fun _ _ _ _ _ CA (cir_dt 0 k xi) 0) as HA. pose proof (coef_fun _ _ _ _ _ CB (cir_dw 0 k xi) 0) as HB.
    cbv beta in HA, HB. rewrite Rmax_left in HA, HB by lra. rewrite sqrt_0 in HB.
    split; [split; [|split]; auto; intros f g H; apply H; unfold nonneg; lra|].
    intros h B _ (hs & hx & hxx & H).
    destruct (MVT_gen (fun z => h z 0) 0 t (fun _ => 0)) as (c & _ & E).
    + intros z Z. rewrite Rmin_left, Rmax_right in Z by auto. destruct (H z 0) as (D & _ & _ & _ & _ & Q); [lra|unfold nonneg; lra|].
      unfold gen1 in Q. rewrite HA, HB in Q. eapply deq; [exact D|]. nra.
    + intros z Z. rewrite Rmin_left, Rmax_right in Z by auto. destruct (H z 0) as (D & _); [lra|unfold nonneg; lra|]. eapply cont_of. exact D.
    + cbv beta. rewrite Rmult_0_l in E. lra.
Qed.
Print Assumptions C69_exists.

(** with x0 = theta = k = xi = 1 the index of the Bessel function is 1, and the mean stays 1 *)
Example C69_ex : exists gamma iv, euler_gamma gamma /\ bessel_i gamma iv /\ forall t, 0 < t ->
  let c := 2/(1 - exp (- t)) in exists p : R -> R,
    (forall x, 0 < x -> p x = c*exp (- c*(exp (- t) + x))*Rpower (x/exp (- t)) (1/2)*iv 1 (2*c*sqrt (x*exp (- t)))) /\
    half_line p 1 /\ half_line (fun x => x*p x) 1 /\ half_line (fun x => (x - 1)^2*p x) ((1 - exp (- t))*(1 + exp (- t))/2).
Proof.
  destruct C69_exists as [(gamma & iv & G & B) _]. exists gamma, iv. split; auto. split; auto. intros t T c.
  destruct (C69_density gamma iv 1 1 1 1 _ _ G B ltac:(lra) ltac:(lra) ltac:(lra) (cir_dt 1 1 1) (cir_dw 1 1 1)) as (p & P1 & P2 & _).
  destruct (P2 t T) as (I0 & I1 & I2). exists (p t). split; [|split; [auto|split]].
  - intros x X. destruct (P1 t x T X) as [E _]. unfold cir_pdf in E. cbv zeta in E.
    replace (2*1*1/(1*1) - 1) with 1 in E by field. replace (- (1)*t) with (- t) in E by ring. replace (2*1/(1 - exp (- t))/(1*1)) with c in E by (unfold c, Rdiv; rewrite !Rmult_1_r, Rinv_1; ring).
    replace (1*exp (- t)) with (exp (- t)) in E by ring. replace (x*1*exp (- t)) with (x*exp (- t)) in E by ring.
    unfold np_power in E. destruct (Rlt_dec 0 (x/exp (- t))) as [_|N]; [congruence|]. destruct N. apply Rdiv_lt_0_compat; auto. apply exp_pos.
  - eapply half_eq; [exact I1|]. unfold cir_mean. ring.
  - replace (cir_mean 1 1 1 1 t) with 1 in I2 by (unfold cir_mean; ring). eapply half_eq; [exact I2|]. unfold cir_var. replace (- (1)*t) with (- t) by ring. field.
Qed.
