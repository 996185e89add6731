(** Normal and lognormal laws. *)
From Coq Require Import Reals Lra Psatz.
From Coquelicot Require Import Coquelicot.
From Verif Require Import S_rv L_rv L_gauss L_gauss2 S_dist M_analytical S_analytical M_dist.
Local Open Scope R_scope.

Lemma sqrt_2PI : 0 < sqrt (2*PI).
Proof. pose proof PI_RGT_0. apply sqrt_lt_R0. lra. Qed.
Lemma lim_at (f : R -> R) (b : Rbar) (l : R) : b = p_infty \/ b = m_infty -> is_lim f b l <-> filterlim f (Rbar_locally b) (locally l).
Proof. intros [->| ->]; reflexivity. Qed.

(** *** the distribution function *)
Section Cdf.
Variable F : R -> R.
Hypothesis HF : std_normal_cdf F.
Lemma cdf_eq x : F x = Phi x + 1/2.
Proof using HF.
  destruct HF as [D L]. set (d := fun x => F x - Phi x).
  assert (DD : forall x, is_derive d x 0). { intro y. unfold d. replace 0 with (exp (- (y*y/2))/sqrt (2*PI) - phi y) by (unfold phi; ring). apply (is_derive_minus (V := R_NormedModule)); [apply D|apply Phi_derive]. }
  assert (K : forall y, d y = d x).
  { intro y. destruct (Rtotal_order x y) as [H|[->|H]]; auto; [symmetry|]; apply (eq_is_derive (V := R_NormedModule) d); auto. }
  assert (L1 : is_lim d m_infty (0 - - (1/2))) by (apply is_lim_minus'; [exact L|apply Phi_lim_m]).
  assert (L2 : is_lim d m_infty (d x)) by (apply is_lim_ext with (fun _ => d x); [intro; symmetry; apply K|apply is_lim_const]).
  apply is_lim_unique in L1. apply is_lim_unique in L2. rewrite L1 in L2. injection L2 as E. unfold d in E. lra.
Qed.
Lemma cdf_lim : is_lim F p_infty 1.
Proof using HF.
  apply is_lim_ext with (fun x => Phi x + 1/2); [intro; symmetry; apply cdf_eq|]. replace (Finite 1) with (Finite (1/2 + 1/2)) by (f_equal; field). apply is_lim_plus'; [apply Phi_lim|apply is_lim_const].
Qed.
Lemma cdf_sym : symmetric_cdf F.
Proof using HF.
  intro x. rewrite !cdf_eq. unfold Phi. replace (- x/sqrt 2) with (- (x/sqrt 2)) by (unfold Rdiv; ring). rewrite G_odd. field. pose proof sqrt_PI_pos. lra.
Qed.
End Cdf.
Lemma cdf_exists : std_normal_cdf (fun x => Phi x + 1/2).
Proof.
  split.
  - intro x. replace (exp (- (x*x/2))/sqrt (2*PI)) with (phi x + 0) by (unfold phi; ring). apply (is_derive_plus (V := R_NormedModule) Phi (fun _ => 1/2)); [apply Phi_derive|apply (is_derive_const (V := R_NormedModule))].
  - replace (Finite 0) with (Finite (- (1/2) + 1/2)) by (f_equal; ring). apply is_lim_plus'; [apply Phi_lim_m|apply is_lim_const].
Qed.

(** *** normal law *)
Definition npdf (m s x : R) : R := let z := (x - m)/s in exp (- (z*z/2))/sqrt (2*PI)/s.
Lemma npdf_phi m s x : npdf m s x = phi ((x - m)/s)/s.
Proof. reflexivity. Qed.
Lemma aff_p m s : 0 < s -> filterlim (fun x => (x - m)/s) (Rbar_locally p_infty) (Rbar_locally p_infty).
Proof.
  intros S P [M H]. exists (m + s*M). intros x X. apply H. apply Rmult_lt_reg_r with s; auto. replace ((x - m)/s*s) with (x - m) by (field; lra). lra.
Qed.
Lemma aff_m m s : 0 < s -> filterlim (fun x => (x - m)/s) (Rbar_locally m_infty) (Rbar_locally m_infty).
Proof.
  intros S P [M H]. exists (m + s*M). intros x X. apply H. apply Rmult_lt_reg_r with s; auto. replace ((x - m)/s*s) with (x - m) by (field; lra). lra.
Qed.
Lemma aff_derive m s x : s <> 0 -> is_derive (fun x => (x - m)/s) x (/ s).
Proof. intro S. auto_derive; auto. field. auto. Qed.
Lemma normal_line m s h f v : 0 < s -> (forall z, continuous h z) -> mean_normal h v -> (forall x, f x = h ((x - m)/s) * npdf m s x) -> line f v.
Proof.
  intros S C M E. unfold line. eapply gen_ext; [apply (gen_subst (fun z => h z * phi z) (fun x => (x - m)/s) (fun _ => / s)
     (Rbar_locally m_infty) (Rbar_locally p_infty) (Rbar_locally m_infty) (Rbar_locally p_infty) v)| | | |]; try apply Rbar_locally_filter; auto.
  - apply aff_m; auto.
  - apply aff_p; auto.
  - intro z. apply (continuous_mult (K := R_AbsRing) h phi); [apply C|apply phi_cont].
  - apply prod_all; try apply Rbar_locally_filter. intros ab x _. split; [apply aff_derive; lra|apply continuous_const].
  - apply prod_all; try apply Rbar_locally_filter. intros ab x _. rewrite E, npdf_phi. unfold Rdiv. ring.
Qed.
Lemma npdf_pos m s x : 0 < s -> 0 < npdf m s x.
Proof. intro S. rewrite npdf_phi. apply Rdiv_lt_0_compat; auto. apply phi_pos. Qed.
Lemma mean_eq h v w : mean_normal h v -> v = w -> mean_normal h w. Proof. intros H <-. auto. Qed.
Lemma mean_ext h k v w : mean_normal h v -> (forall z, k z = h z) -> v = w -> mean_normal k w.
Proof. intros H E <-. unfold mean_normal in *. eapply (is_RInt_gen_ext (V := R_CompleteNormedModule)); [|exact H]. apply filter_forall. intros ab z _. cbv beta. rewrite E. reflexivity. Qed.
Ltac dcont := intro; apply (ex_derive_continuous (V := R_NormedModule)); auto_derive; auto.
Lemma normal_density F m s : std_normal_cdf F -> 0 < s -> density (npdf m s) (fun x => F ((x - m)/s)).
Proof.
  intros HF S. split; [intro; left; apply npdf_pos; auto|]. split; [|split; [|split]].
  - intro x. destruct HF as [D _]. rewrite npdf_phi. unfold Rdiv at 2. rewrite Rmult_comm. apply (is_derive_comp F (fun x => (x - m)/s)); [apply D|apply aff_derive; lra].
  - destruct HF as [_ L]. apply (filterlim_comp _ _ _ (fun x => (x - m)/s) F _ (Rbar_locally m_infty)); [apply aff_m; auto|exact L].
  - apply (filterlim_comp _ _ _ (fun x => (x - m)/s) F _ (Rbar_locally p_infty)); [apply aff_p; auto|exact (cdf_lim F HF)].
  - apply (normal_line m s (fun _ => 1)); auto; [intro; apply continuous_const| |intro; ring].
    eapply mean_ext; [apply (mean_normal_poly 1 0 0)|intro; cbv beta; ring|ring].
Qed.
Lemma normal_moments m s : 0 < s -> moments line (npdf m s) m (s*s).
Proof.
  intro S. split.
  - apply (normal_line m s (fun z => m + s*z)); auto; [dcont| |intro x; f_equal; field; lra]. eapply mean_ext; [apply (mean_normal_poly m s 0)|intro; cbv beta; ring|ring].
  - apply (normal_line m s (fun z => s*s*(z*z))); auto; [dcont| |intro x; f_equal; field; lra]. eapply mean_ext; [apply (mean_normal_poly 0 0 (s*s))|intro; cbv beta; ring|ring].
Qed.
Lemma normal_fourier m s : 0 < s -> fourier line (fun x => x) (npdf m s) (normal_chf m s).
Proof.
  intros S u. unfold normal_chf, cexp. cbn [fst snd]. split.
  - apply (normal_line m s (fun z => cos (u*s*z + m*u))); auto; [dcont| |intro x; do 2 f_equal; field; lra].
    eapply mean_eq; [apply mean_normal_cos|]. rewrite Rmult_comm. do 3 f_equal. field.
  - apply (normal_line m s (fun z => sin (u*s*z + m*u))); auto; [dcont| |intro x; do 2 f_equal; field; lra].
    eapply mean_eq; [apply mean_normal_sin|]. rewrite Rmult_comm. do 3 f_equal. field.
Qed.

(** *** evolution *)
Lemma npdf_dx m s x : s <> 0 -> is_derive (npdf m s) x (- ((x - m)/(s*s))*npdf m s x).
Proof. intro S. pose proof sqrt_2PI. unfold npdf. auto_derive; auto. unfold Rdiv, Rminus. field. lra. Qed.
Lemma npdf_dt (m v : R -> R) m' v' t x : 0 < v t -> is_derive m t m' -> is_derive v t v' ->
  is_derive (fun t => npdf (m t) (sqrt (v t)) x) t (((x - m t)*m'/v t + v'*((x - m t)^2/(2*v t ^2) - /(2*v t)))*npdf (m t) (sqrt (v t)) x).
Proof.
  intros V DM DV. pose proof sqrt_2PI. pose proof (sqrt_lt_R0 _ V) as Q. pose proof (sqrt_sqrt (v t) (Rlt_le _ _ V)) as QQ. unfold npdf.
  assert (EM : ex_derive m t) by (eexists; eauto). assert (EV : ex_derive v t) by (eexists; eauto).
  auto_derive; [repeat split; auto; lra|]. assert (E1 : Derive (fun x : R => m x) t = m') by (apply is_derive_unique; exact DM). assert (E2 : Derive (fun x : R => v x) t = v') by (apply is_derive_unique; exact DV). rewrite E1, E2. unfold Rdiv, Rminus.
  set (e := exp _). set (s := sqrt (v t)) in *. rewrite <- QQ. clearbody e s. match goal with |- ?a = ?b => change (@eq R a b) end. field. lra.
Qed.
Lemma forward_gauss (a b : R -> R) (al be B : R) (m v : R -> R) t x :
  (forall x, a x = al + be*x) -> (forall x, b x = B) -> 0 < v t -> is_derive m t (al + be*m t) -> is_derive v t (2*be*v t + B*B) ->
  forward a b (fun t x => npdf (m t) (sqrt (v t)) x) t x.
Proof.
  intros HA HB V DM DV. pose proof (sqrt_lt_R0 _ V) as Q. pose proof (sqrt_sqrt (v t) (Rlt_le _ _ V)) as QQ.
  set (s := sqrt (v t)) in *. set (p := npdf (m t) s x).
  assert (DX : forall z, is_derive (npdf (m t) s) z (- ((z - m t)/(s*s))*npdf (m t) s z)) by (intro; apply npdf_dx; lra).
  exists (((x - m t)*(al + be*m t)/v t + (2*be*v t + B*B)*((x - m t)^2/(2*v t ^2) - /(2*v t)))*p),
    (be*p + (al + be*x)*(- ((x - m t)/(s*s))*p)), (B*B*(- /(s*s)*p + - ((x - m t)/(s*s))*(- ((x - m t)/(s*s))*p))),
    (fun z => B*B*(- ((z - m t)/(s*s))*npdf (m t) s z)).
  split; [apply npdf_dt; auto|]. split; [|split; [|split]].
  - apply (is_derive_ext (fun z => (al + be*z)*npdf (m t) s z)); [intro; rewrite HA; reflexivity|].
    apply (is_derive_mult (fun z => al + be*z) (npdf (m t) s) x be); [auto_derive; auto; ring|apply DX|intros; apply Rmult_comm].
  - intro z. apply (is_derive_ext (fun z => B*B*npdf (m t) s z)); [intro; rewrite HB; match goal with |- ?a = ?b => change (@eq R a b) end; fold s; ring|].
    apply (is_derive_scal (npdf (m t) s)). apply DX.
  - apply (is_derive_scal (fun z => - ((z - m t)/(s*s))*npdf (m t) s z)).
    apply (is_derive_mult (fun z => - ((z - m t)/(s*s))) (npdf (m t) s) x (- /(s*s))); [auto_derive; auto; field; lra|apply DX|intros; apply Rmult_comm].
  - rewrite <- QQ. clearbody p s. field. lra.
Qed.
Lemma right_ball (f : R -> R) (l d : R) : 0 < d -> filterlim f (at_right 0) (locally l) -> at_right 0 (fun t => 0 < t /\ Rabs (f t - l) < d).
Proof.
  intros D L. apply filter_and; [exists (mkposreal 1 Rlt_0_1); intros; auto|]. apply (L (fun y => Rabs (y - l) < d)). exists (mkposreal d D). intros y Y. exact Y.
Qed.
Lemma right_quot (m v : R -> R) x x0 : (forall t, 0 < t -> 0 < v t) -> filterlim m (at_right 0) (locally x0) -> filterlim v (at_right 0) (locally 0) ->
  (x < x0 -> filterlim (fun t => (x - m t)/sqrt (v t)) (at_right 0) (Rbar_locally m_infty)) /\
  (x0 < x -> filterlim (fun t => (x - m t)/sqrt (v t)) (at_right 0) (Rbar_locally p_infty)).
Proof.
  intros V LM LV.
  assert (K : forall d M, 0 < d -> at_right 0 (fun t => 0 < t /\ Rabs (m t - x0) < d /\ sqrt (v t)*(Rabs M + 1) < d)).
  { intros d M D. pose proof (Rabs_pos M). set (e := d/(Rabs M + 1)). assert (E : 0 < e) by (apply Rdiv_lt_0_compat; lra).
    generalize (filter_and _ _ (right_ball m x0 d D LM) (right_ball v 0 (e*e) (Rmult_lt_0_compat _ _ E E) LV)). apply filter_imp.
    intros t [[T1 T2] [_ T3]]. split; auto. split; auto. rewrite Rminus_0_r in T3. specialize (V t T1). rewrite Rabs_right in T3 by lra.
    apply Rlt_le_trans with (e*(Rabs M + 1)); [|unfold e; right; field; lra]. apply Rmult_lt_compat_r; [lra|].
    rewrite <- (sqrt_square e) by lra. apply sqrt_lt_1; lra. }
  split; intros X P [M HM].
  - unfold filtermap. generalize (K ((x0 - x)/2) M ltac:(lra)). apply filter_imp. intros t (T & B & S). apply HM. specialize (V t T). pose proof (sqrt_lt_R0 _ V).
    apply Rabs_def2 in B. apply Rmult_lt_reg_r with (sqrt (v t)); auto. replace ((x - m t)/sqrt (v t)*sqrt (v t)) with (x - m t) by (field; lra).
    assert (- Rabs M <= M) by (pose proof (Rle_abs (- M)); rewrite Rabs_Ropp in *; lra). nra.
  - unfold filtermap. generalize (K ((x - x0)/2) M ltac:(lra)). apply filter_imp. intros t (T & B & S). apply HM. specialize (V t T). pose proof (sqrt_lt_R0 _ V).
    apply Rabs_def2 in B. apply Rmult_lt_reg_r with (sqrt (v t)); auto. replace ((x - m t)/sqrt (v t)*sqrt (v t)) with (x - m t) by (field; lra).
    pose proof (Rle_abs M). nra.
Qed.
Lemma starts_gauss F x0 (m v : R -> R) : std_normal_cdf F -> (forall t, 0 < t -> 0 < v t) ->
  filterlim m (at_right 0) (locally x0) -> filterlim v (at_right 0) (locally 0) -> starts_at x0 (fun t x => F ((x - m t)/sqrt (v t))).
Proof.
  intros HF V LM LV. split; intros x X; destruct (right_quot m v x x0 V LM LV) as [H1 H2].
  - apply (filterlim_comp _ _ _ (fun t => (x - m t)/sqrt (v t)) F _ (Rbar_locally m_infty)); [auto|exact (proj2 HF)].
  - apply (filterlim_comp _ _ _ (fun t => (x - m t)/sqrt (v t)) F _ (Rbar_locally p_infty)); [auto|exact (cdf_lim F HF)].
Qed.
Lemma right_cont (f : R -> R) l : continuous f 0 -> f 0 = l -> filterlim f (at_right 0) (locally l).
Proof. intros C <-. eapply filterlim_filter_le_1; [|exact C]. intros P [e H]. exists e. auto. Qed.

(** *** lognormal law *)
Definition lpdf (c s x : R) : R := if Rlt_dec 0 x then let z := ln (x/c)/s in exp (- (z*z/2))/(s*(x/c)*sqrt (2*PI))/c else 0.
Definition lcdf (F : R -> R) (c s x : R) : R := if Rlt_dec 0 x then F (ln (x/c)/s) else 0.
Lemma lpdf_phi c s x : 0 < c -> 0 < s -> 0 < x -> lpdf c s x = /(s*x)*phi (ln (x/c)/s).
Proof. intros C S X. pose proof sqrt_2PI. unfold lpdf, phi. destruct (Rlt_dec 0 x); [|lra]. cbv zeta. field. lra. Qed.
Lemma div_pos x y : 0 < x -> 0 < y -> 0 < x/y. Proof. apply Rdiv_lt_0_compat. Qed.
Lemma log_derive c s x : 0 < c -> 0 < s -> 0 < x -> is_derive (fun x => ln (x/c)/s) x (/(s*x)).
Proof. intros C S X. pose proof (div_pos x c X C). auto_derive; [repeat split; auto; lra|]. field. lra. Qed.
Lemma log_p c s : 0 < c -> 0 < s -> filterlim (fun x => ln (x/c)/s) (Rbar_locally p_infty) (Rbar_locally p_infty).
Proof.
  intros C S P [M H]. exists (c*exp (s*M)). intros x X. pose proof (exp_pos (s*M)). apply H. assert (0 < c*exp (s*M)) by (apply Rmult_lt_0_compat; lra).
  apply Rmult_lt_reg_r with s; auto. replace (ln (x/c)/s*s) with (ln (x/c)) by (field; lra). rewrite <- (ln_exp (M*s)). apply ln_increasing; [apply exp_pos|].
  apply Rmult_lt_reg_r with c; auto. replace (x/c*c) with x by (field; lra). rewrite (Rmult_comm M s). lra.
Qed.
Lemma log_0 c s : 0 < c -> 0 < s -> filterlim (fun x => ln (x/c)/s) (at_right 0) (Rbar_locally m_infty).
Proof.
  intros C S P [M H]. pose proof (exp_pos (s*M)). assert (Q : 0 < c*exp (s*M)) by (apply Rmult_lt_0_compat; lra). exists (mkposreal _ Q). intros x B X.
  unfold ball in B. simpl in B. unfold AbsRing_ball, abs, minus, plus, opp in B. simpl in B. apply Rabs_def2 in B. apply H.
  apply Rmult_lt_reg_r with s; auto. replace (ln (x/c)/s*s) with (ln (x/c)) by (field; lra). rewrite <- (ln_exp (M*s)). apply ln_increasing; [apply div_pos; auto|].
  apply Rmult_lt_reg_r with c; auto. unfold Rdiv. rewrite Rmult_assoc, Rinv_l, Rmult_1_r by lra. rewrite (Rmult_comm M s). lra.
Qed.
Lemma pos_prod (P : R * R -> Prop) : (forall a b, 0 < a -> 0 < b -> P (a, b)) -> filter_prod (at_right 0) (Rbar_locally p_infty) P.
Proof.
  intro H. exists (fun a => 0 < a) (fun b => 0 < b); [exists (mkposreal 1 Rlt_0_1); auto|exists 0; auto|]. auto.
Qed.
Lemma between_pos a b x : 0 < a -> 0 < b -> Rmin a b <= x -> 0 < x.
Proof. intros A B H. apply Rlt_le_trans with (Rmin a b); [apply Rmin_pos; auto|auto]. Qed.
Lemma right_filter : Filter (at_right 0). Proof. apply filter_filter. Qed.
Lemma lognormal_line c s h f v : 0 < c -> 0 < s -> (forall z, continuous h z) -> mean_normal h v ->
  (forall x, 0 < x -> f x = h (ln (x/c)/s) * lpdf c s x) -> half_line f v.
Proof.
  intros C S CH M E. unfold half_line. eapply gen_ext; [apply (gen_subst (fun z => h z * phi z) (fun x => ln (x/c)/s) (fun x => /(s*x))
     (at_right 0) (Rbar_locally p_infty) (Rbar_locally m_infty) (Rbar_locally p_infty) v)| | | |]; try apply Rbar_locally_filter; try apply right_filter; auto.
  - apply log_0; auto.
  - apply log_p; auto.
  - intro z. apply (continuous_mult (K := R_AbsRing) h phi); [apply CH|apply phi_cont].
  - apply pos_prod. intros a b A B x [X _]. simpl in X. apply (between_pos a b x A B) in X. split; [apply log_derive; auto|].
    apply (ex_derive_continuous (V := R_NormedModule)). auto_derive. nra.
  - apply pos_prod. intros a b A B x [X _]. simpl in X. apply (between_pos a b x A B) in X. rewrite E, lpdf_phi by auto. ring.
Qed.
Lemma lognormal_density F c s : std_normal_cdf F -> 0 < c -> 0 < s -> pos_density (lpdf c s) (lcdf F c s).
Proof.
  intros HF C S. split; [|split; [|split; [|split; [|split]]]].
  - intros x X. unfold lpdf, lcdf. destruct (Rlt_dec 0 x); [lra|auto].
  - intro x. destruct (Rlt_dec 0 x) as [X|X]; [|unfold lpdf; destruct (Rlt_dec 0 x); [contradiction|lra]]. rewrite lpdf_phi by auto. left. apply Rmult_lt_0_compat; [|apply phi_pos].
    apply Rinv_0_lt_compat. apply Rmult_lt_0_compat; auto.
  - intros x X. rewrite lpdf_phi by auto. apply (is_derive_ext_loc (fun x => F (ln (x/c)/s))).
    + exists (mkposreal x X). intros y B. unfold ball in B. simpl in B. unfold AbsRing_ball, abs, minus, plus, opp in B. simpl in B. apply Rabs_def2 in B.
      unfold lcdf. destruct (Rlt_dec 0 y); auto. lra.
    + apply (is_derive_comp F (fun x => ln (x/c)/s)); [apply HF|apply log_derive; auto].
  - apply (filterlim_ext_loc (fun x => F (ln (x/c)/s))).
    + exists (mkposreal 1 Rlt_0_1). intros y _ Y. unfold lcdf. destruct (Rlt_dec 0 y); auto. contradiction.
    + apply (filterlim_comp _ _ _ (fun x => ln (x/c)/s) F _ (Rbar_locally m_infty)); [apply log_0; auto|exact (proj2 HF)].
  - apply (filterlim_ext_loc (fun x => F (ln (x/c)/s))).
    + exists 0. intros y Y. unfold lcdf. destruct (Rlt_dec 0 y); auto. contradiction.
    + apply (filterlim_comp _ _ _ (fun x => ln (x/c)/s) F _ (Rbar_locally p_infty)); [apply log_p; auto|exact (cdf_lim F HF)].
  - apply (lognormal_line c s (fun _ => 1)); auto; [intro; apply continuous_const| |intros; ring].
    eapply mean_ext; [apply (mean_normal_poly 1 0 0)|intro; cbv beta; ring|ring].
Qed.
Lemma exp_log c s x : 0 < c -> 0 < s -> 0 < x -> c*exp (s*(ln (x/c)/s)) = x.
Proof. intros C S X. replace (s*(ln (x/c)/s)) with (ln (x/c)) by (field; lra). rewrite exp_ln by (apply div_pos; auto). field. lra. Qed.
Lemma mean_plus h k v w : mean_normal h v -> mean_normal k w -> mean_normal (fun z => h z + k z) (v + w).
Proof.
  intros H K. unfold mean_normal in *. eapply (is_RInt_gen_ext (V := R_CompleteNormedModule)); [|exact (is_RInt_gen_plus (V := R_CompleteNormedModule) _ _ _ _ H K)].
  apply filter_forall. intros ab z _. cbv beta. unfold plus. simpl. match goal with |- ?a = ?b => change (@eq R a b) end. ring.
Qed.
Lemma mean_scal a h v : mean_normal h v -> mean_normal (fun z => a * h z) (a * v).
Proof.
  intros H. unfold mean_normal in *. eapply (is_RInt_gen_ext (V := R_CompleteNormedModule)); [|exact (is_RInt_gen_scal (V := R_CompleteNormedModule) _ a _ H)].
  apply filter_forall. intros ab z _. cbv beta. unfold scal. simpl. unfold mult. simpl. match goal with |- ?a = ?b => change (@eq R a b) end. ring.
Qed.
Lemma lognormal_moments c s : 0 < c -> 0 < s -> moments half_line (lpdf c s) (c*exp (s*s/2)) (c*c*exp (s*s)*(exp (s*s) - 1)).
Proof.
  intros C S. assert (M1 : forall k, mean_normal (fun z => exp (k*s*z)) (exp (k*k*(s*s/2)))).
  { intro k. eapply mean_ext; [apply (mean_normal_exp 0 (k*s))|intro z; cbv beta; f_equal; ring|f_equal; field]. }
  split.
  - apply (lognormal_line c s (fun z => c*exp (s*z))); auto; [dcont| |intros x X; rewrite exp_log by auto; reflexivity].
    eapply mean_ext; [apply (mean_scal c); apply (M1 1)|intro z; cbv beta; replace (1*s*z) with (s*z) by ring; reflexivity|replace (1*1*(s*s/2)) with (s*s/2) by ring; reflexivity].
  - set (m := c*exp (s*s/2)). apply (lognormal_line c s (fun z => (c*exp (s*z) - m)^2)); auto; [dcont| |intros x X; rewrite exp_log by auto; reflexivity].
    assert (E1 : mean_normal (fun _ => 1) 1) by (eapply mean_ext; [apply (mean_normal_poly 1 0 0)|intro; cbv beta; ring|ring]).
    eapply mean_ext; [apply mean_plus; [apply (mean_scal (c*c)); apply (M1 2)|apply mean_plus; [apply (mean_scal (- 2*c*m)); apply (M1 1)|apply (mean_scal (m*m)); apply E1]]| |].
    + intro z. cbv beta. replace (exp (2*s*z)) with (exp (s*z)*exp (s*z)) by (rewrite <- exp_plus; f_equal; ring). replace (1*s*z) with (s*z) by ring. ring.
    + unfold m. replace (2*2*(s*s/2)) with (s*s + s*s) by field. replace (1*1*(s*s/2)) with (s*s/2) by ring. rewrite exp_plus. replace (exp (s*s)) with (exp (s*s/2)*exp (s*s/2)) by (rewrite <- exp_plus; f_equal; field). ring.
Qed.
Lemma lognormal_fourier c s : 0 < c -> 0 < s -> fourier half_line ln (lpdf c s) (normal_chf (ln c) s).
Proof.
  intros C S u. unfold normal_chf, cexp. cbn [fst snd].
  assert (E : forall x, 0 < x -> u*ln x = u*s*(ln (x/c)/s) + ln c*u). { intros x X. rewrite ln_div by auto. field. lra. }
  split.
  - apply (lognormal_line c s (fun z => cos (u*s*z + ln c*u))); auto; [dcont| |intros x X; rewrite E by auto; reflexivity].
    eapply mean_eq; [apply mean_normal_cos|]. rewrite Rmult_comm. do 3 f_equal. field.
  - apply (lognormal_line c s (fun z => sin (u*s*z + ln c*u))); auto; [dcont| |intros x X; rewrite E by auto; reflexivity].
    eapply mean_eq; [apply mean_normal_sin|]. rewrite Rmult_comm. do 3 f_equal. field.
Qed.
