(** C70: densities computed from characteristic functions. *)
From Coq Require Import String List Arith Lia Reals Lra Psatz.
From Coquelicot Require Import Coquelicot.
From Verif Require Import Base BaseNum BaseArr BaseNd BaseIdx M_analytical M_pdf M_rv S_dist S_pdf S_analytical S_rv L_complex L_rv L_gauss L_gauss2 L_dist L_gamma L_cir L_line L_fourier L_mix L_expconv L_jumppdf L_hestonpdf M_sde M_presets S_chf L_coefs P_chf P_rv P_heston.
Import ListNotations.
Local Open Scope R_scope.

(** *** shapes *)
Theorem C70_shape quad t x chf :
  ((exists p, chf_to_pdf quad t x chf = Ok p) <-> shp t = [] \/ shp x = []) /\
  (forall p, chf_to_pdf quad t x chf = Ok p -> bshape (shp t) (shp x) = Some (shp p) /\
    forall i, inb (shp p) i -> dat p i = quad (fun u => pdf_integrand chf u (bget t i) (bget x i))).
Proof.
  unfold chf_to_pdf. destruct t as [[|n st] t], x as [[|m sx] x]; cbn [shp dat].
  - split; [split; [auto|eauto]|]. intros p H. injection H as <-. cbn [shp dat]. split; [reflexivity|]. intros i I. inversion I; subst. reflexivity.
  - split; [split; [auto|eauto]|]. intros p H. injection H as <-. cbn [shp dat]. split; [apply bshape_nil_l|intros i I].
    rewrite (bget_self (mkArr (m :: sx) x)) by auto. reflexivity.
  - split; [split; [auto|eauto]|]. intros p H. injection H as <-. cbn [shp dat]. split; [apply bshape_can_r, can_nil|intros i I].
    rewrite (bget_self (mkArr (n :: st) t)) by auto. reflexivity.
  - split; [split; [intros [p H]; discriminate|intros [H|H]; discriminate]|discriminate].
Qed.

(** *** a density, from its characteristic function *)
Lemma integrand_parts chf u t x : pdf_integrand chf u t x = (cos (u*x) * fst (chf t u) + sin (u*x) * snd (chf t u))/(2*PI).
Proof.
  unfold pdf_integrand. pose proof PI_RGT_0.
  replace (Copp Ci * u * x)%C with ((0, - (u*x)) : C) by (apply C_eq; simpl; ring). unfold cexp. cbn [fst snd]. rewrite exp_0, cos_neg, sin_neg, !Rmult_1_l.
  unfold Cdiv. rewrite <- RtoC_inv by lra. destruct (chf t u). cbn [fst snd Cmult RtoC]. field. lra.
Qed.
Lemma quad_value quad chf T p D V x : integrates quad -> cont_density p -> fourier line (fun y => y) p (chf T) -> cont_line D -> line D V ->
  (forall u, Cmod (chf T u) <= D u) -> quad (fun u => pdf_integrand chf u T x) = p x.
Proof.
  intros Q (Cp & Pp & Lp) F CD LD BD. pose proof PI_RGT_0. apply Q.
  eapply line_eq; [eapply line_ext; [apply (line_scal _ _ (/(2*PI)) (inversion p (chf T) D V x Cp Pp Lp F CD LD BD))|]|field; lra].
  intro u. cbv beta. rewrite integrand_parts. unfold Rdiv. ring.
Qed.
(** if chf(T, .) is the characteristic function of a continuous density p, and its modulus is at most an integrable function,
    chf_to_pdf gives the values of p *)
Theorem C70_inversion quad t x chf r i p : integrates quad -> chf_to_pdf quad t x chf = Ok r -> inb (shp r) i ->
  cont_density p -> fourier line (fun y => y) p (chf (bget t i)) ->
  (exists D V, (forall u, continuous D u) /\ line D V /\ forall u, Cmod (chf (bget t i) u) <= D u) ->
  dat r i = p (bget x i).
Proof.
  intros Q H I CD F (D & V & C & L & B). rewrite (proj2 (proj2 (C70_shape quad t x chf) r H) i I). eapply quad_value; eauto.
Qed.

(** *** jump diffusions *)
Lemma poisson_time lam T phi : compound_poisson_chf lam T phi = compound_poisson_chf (lam*T) 1 phi.
Proof. unfold compound_poisson_chf. do 2 f_equal. f_equal. ring. Qed.
Lemma jump_integrable m v l J : 0 < v -> 0 <= l -> (forall u, Cmod (J u) <= 1) ->
  exists D V, cont_line D /\ line D V /\ forall u, Cmod (normal_chf m (sqrt v) u * compound_poisson_chf l 1 (J u))%C <= D u.
Proof.
  intros V L B. assert (S0 : 0 < sqrt v) by (apply sqrt_lt_R0; auto). exists (gk (sqrt v)). eexists. split; [apply gk_cont|]. split; [apply gk_line; auto|].
  intro u. rewrite Cmod_mult. pose proof (compound_bound l 1 (J u) ltac:(lra) (B u)) as K. unfold normal_chf. rewrite cexp_mod. cbn [fst]. unfold gk.
  replace (- (sqrt v*sqrt v*u*u/2)) with (- (sqrt v*sqrt v*(u*u)/2)) by (unfold Rdiv; ring). pose proof (exp_pos (- (sqrt v*sqrt v*(u*u)/2))).
  pose proof (Cmod_ge_0 (compound_poisson_chf l 1 (J u))). nra.
Qed.
Lemma var_pos sigma T : sigma <> 0 -> 0 < T -> 0 < sigma*sigma*T.
Proof. intros S T0. apply Rmult_lt_0_compat; auto. nra. Qed.
(** for T > 0: the density of a normal variate plus the sum of a Poisson number of normal jumps, whose characteristic function is
    mjd_log_chf: mjd_log_pdf gives its values *)
Theorem C70_merton quad x0 mu sigma lam a b : integrates quad -> sigma <> 0 -> 0 <= lam -> exists p : R -> R -> R,
  (forall T, 0 < T -> jump_mixture (normal_jump a b) (gaussian (ln x0 + (mu - sigma*sigma/2)*T) (sigma*sigma*T)) (lam*T) (p T) /\
                      cont_density (p T) /\ fourier line (fun y => y) (p T) (mjd_log_chf x0 mu sigma lam a b T)) /\
  (forall t x r, mjd_log_pdf quad t x x0 mu sigma lam a b = Ok r -> forall i, inb (shp r) i -> 0 < bget t i -> dat r i = p (bget t i) (bget x i)).
Proof.
  intros Q S L. set (m := fun T => ln x0 + (mu - sigma*sigma/2)*T).
  assert (EC : forall T, 0 < T -> forall u, (normal_chf (m T) (sqrt (sigma*sigma*T)) u * compound_poisson_chf (lam*T) 1 (normal_chf a b u))%C = mjd_log_chf x0 mu sigma lam a b T u).
  { intros T T0 u. rewrite C57_merton, C57_lognorm by lra. rewrite <- poisson_time. reflexivity. }
  exists (fun T => mixture (lam*T) (mj (m T) (sigma*sigma*T) a b)).
  assert (G : forall T, 0 < T -> jump_mixture (normal_jump a b) (gaussian (m T) (sigma*sigma*T)) (lam*T) (mixture (lam*T) (mj (m T) (sigma*sigma*T) a b)) /\
    cont_density (mixture (lam*T) (mj (m T) (sigma*sigma*T) a b)) /\ fourier line (fun y => y) (mixture (lam*T) (mj (m T) (sigma*sigma*T) a b)) (mjd_log_chf x0 mu sigma lam a b T)).
  { intros T T0. destruct (merton_mixture (m T) (sigma*sigma*T) a b (lam*T) (var_pos _ _ S T0) ltac:(nra)) as (M & CD & F). split; [exact M|]. split; [exact CD|].
    eapply fourier_ext; [apply EC; auto|exact F]. }
  split; [exact G|]. intros t x r H i I T0. destruct (G _ T0) as (_ & CD & F). eapply C70_inversion; eauto.
  destruct (jump_integrable (m (bget t i)) (sigma*sigma*bget t i) (lam*bget t i) (normal_chf a b) (var_pos _ _ S T0) ltac:(nra) (normal_chf_bound a b)) as (D & V & C & LD & B).
  exists D, V. split; [exact C|]. split; [exact LD|]. intro u. rewrite <- EC by auto. apply B.
Qed.
(** the same, with double exponential jumps *)
Theorem C70_kou quad x0 mu sigma lam a b pa : integrates quad -> sigma <> 0 -> 0 <= lam -> 0 < a -> 0 < b -> 0 <= pa <= 1 -> exists p : R -> R -> R,
  (forall T, 0 < T -> jump_mixture (double_jump a b pa) (gaussian (ln x0 + (mu - sigma*sigma/2)*T) (sigma*sigma*T)) (lam*T) (p T) /\
                      cont_density (p T) /\ fourier line (fun y => y) (p T) (kou_log_chf x0 mu sigma lam a b pa T)) /\
  (forall t x r, kou_log_pdf quad t x x0 mu sigma lam a b pa = Ok r -> forall i, inb (shp r) i -> 0 < bget t i -> dat r i = p (bget t i) (bget x i)).
Proof.
  intros Q S L A0 B0 PA. set (m := fun T => ln x0 + (mu - sigma*sigma/2)*T).
  assert (EC : forall T, 0 < T -> forall u, (normal_chf (m T) (sqrt (sigma*sigma*T)) u * compound_poisson_chf (lam*T) 1 (double_exp_chf a b pa u))%C = kou_log_chf x0 mu sigma lam a b pa T u).
  { intros T T0 u. rewrite C57_kou, C57_lognorm by lra. rewrite <- poisson_time. reflexivity. }
  exists (fun T => mixture (lam*T) (kj (m T) (sigma*sigma*T) a b pa)).
  assert (G : forall T, 0 < T -> jump_mixture (double_jump a b pa) (gaussian (m T) (sigma*sigma*T)) (lam*T) (mixture (lam*T) (kj (m T) (sigma*sigma*T) a b pa)) /\
    cont_density (mixture (lam*T) (kj (m T) (sigma*sigma*T) a b pa)) /\ fourier line (fun y => y) (mixture (lam*T) (kj (m T) (sigma*sigma*T) a b pa)) (kou_log_chf x0 mu sigma lam a b pa T)).
  { intros T T0. destruct (kou_mixture (m T) (sigma*sigma*T) a b pa (lam*T) (var_pos _ _ S T0) ltac:(nra) A0 B0 PA) as (M & CD & F). split; [exact M|]. split; [exact CD|].
    eapply fourier_ext; [apply EC; auto|exact F]. }
  split; [exact G|]. intros t x r H i I T0. destruct (G _ T0) as (_ & CD & F). eapply C70_inversion; eauto.
  assert (BJ : forall u, Cmod (double_exp_chf a b pa u) <= 1).
  { intro u. unfold double_exp_chf. eapply Rle_trans; [apply Cmod_triangle|]. rewrite !Cmod_mult, !Cmod_R, !Rabs_pos_eq by lra.
    pose proof (exp_chf_bound a u). pose proof (exp_chf_bound b (-u)). nra. }
  destruct (jump_integrable (m (bget t i)) (sigma*sigma*bget t i) (lam*bget t i) (double_exp_chf a b pa) (var_pos _ _ S T0) ltac:(nra) BJ) as (D & V & C & LD & B).
  exists D, V. split; [exact C|]. split; [exact LD|]. intro u. rewrite <- EC by auto. apply B.
Qed.
(** the density in closed form, for normal jumps *)
Theorem C70_merton_series quad x0 mu sigma lam a b t x r i : integrates quad -> sigma <> 0 -> 0 <= lam -> mjd_log_pdf quad t x x0 mu sigma lam a b = Ok r ->
  inb (shp r) i -> 0 < bget t i -> let T := bget t i in
  is_series (fun n => poisson_prob (lam*T) n * gaussian (ln x0 + (mu - sigma*sigma/2)*T + INR n*a) (sigma*sigma*T + INR n*(b*b)) (bget x i)) (dat r i).
Proof.
  intros Q S L H I T0 T. set (m := ln x0 + (mu - sigma*sigma/2)*T). assert (V := var_pos _ _ S T0).
  assert (EC : forall u, (normal_chf m (sqrt (sigma*sigma*T)) u * compound_poisson_chf (lam*T) 1 (normal_chf a b u))%C = mjd_log_chf x0 mu sigma lam a b T u).
  { intro u. rewrite C57_merton, C57_lognorm by (unfold T; lra). rewrite <- poisson_time. reflexivity. }
  destruct (merton_mixture m (sigma*sigma*T) a b (lam*T) V ltac:(unfold T; nra)) as (_ & CD & F).
  assert (E : dat r i = mixture (lam*T) (mj m (sigma*sigma*T) a b) (bget x i)).
  { eapply C70_inversion; eauto; [eapply fourier_ext; [apply EC|exact F]|].
    destruct (jump_integrable m (sigma*sigma*T) (lam*T) (normal_chf a b) V ltac:(unfold T; nra) (normal_chf_bound a b)) as (D & W & C & LD & B).
    exists D, W. split; [exact C|]. split; [exact LD|]. intro u. fold T. rewrite <- EC by auto. apply B. }
  rewrite E. unfold mixture.
  assert (X : forall n, 0 < sigma*sigma*T + INR n*(b*b)) by (intro n; pose proof (pos_INR n); unfold T in *; nra).
  assert (XE : ex_series (fun n => poisson_prob (lam*T) n * mj m (sigma*sigma*T) a b n (bget x i))).
  { assert (S0 : 0 < sqrt (sigma*sigma*T)) by (apply sqrt_lt_R0; exact V). apply (mix_exists (lam*T) (/sqrt (sigma*sigma*T))).
    - unfold T. nra.
    - intros n y. left. apply npdf_pos. apply sqrt_lt_R0, X.
    - intros n y. eapply Rle_trans; [apply npdf_bound, sqrt_lt_R0, X|]. apply Rinv_le_contravar; auto. apply sqrt_le_1; [left; exact V|left; apply X|]. pose proof (pos_INR n). nra. }
  eapply ser_ext; [apply Series_correct, XE| |reflexivity]. intro n. cbv beta. unfold mj. rewrite npdf_normal by apply X. reflexivity.
Qed.

(** *** the Heston process: any continuous density with characteristic function heston_log_chf *)
Theorem C70_heston quad x0 mu sigma y0 theta k xi rho t x r i p : integrates quad ->
  0 < k -> xi <> 0 -> -1 < rho < 1 -> sigma <> 0 -> 0 <= theta -> 0 <= y0 -> 0 < theta + y0 ->
  heston_log_pdf quad t x x0 mu sigma y0 theta k xi rho = Ok r -> inb (shp r) i -> 0 < bget t i ->
  cont_density p -> fourier line (fun y => y) p (heston_log_chf x0 mu sigma y0 theta k xi rho (bget t i)) -> dat r i = p (bget x i).
Proof.
  intros Q K X RH S TH Y0 TY H I T0 CD F. eapply C70_inversion; eauto.
  exact (heston_integrable sigma k xi rho (bget t i) K X RH S T0 x0 mu y0 theta TH Y0 TY).
Qed.
Local Open Scope string_scope.
(** the density of the logarithm of the price, whenever it has a continuous one, under any law of the solution of the equations in
    heston_sde; [E f] is the expected value of f(log x, y) at time T *)
Theorem C70_heston_law quad x0 mu sigma y0 theta k xi rho t x r i p a1 b1 a2 b2 E : let args := heston_args mu sigma theta k xi in integrates quad ->
  0 < k -> xi <> 0 -> -1 < rho < 1 -> sigma <> 0 -> 0 <= theta -> 0 <= y0 -> 0 < theta + y0 -> 0 < x0 ->
  heston_log_pdf quad t x x0 mu sigma y0 theta k xi rho = Ok r -> inb (shp r) i -> 0 < bget t i ->
  coef2 heston_sde args 0 "dt" a1 -> coef2 heston_sde args 0 "dw" b1 -> coef2 heston_sde args 1 "dt" a2 -> coef2 heston_sde args 1 "dw" b2 ->
  law2 y_nonneg a1 b1 a2 b2 rho (ln x0, y0) (bget t i) E ->
  cont_density p -> (forall u, line (fun z => cos (u*z) * p z) (E (fun q => cos (u * fst q))) /\ line (fun z => sin (u*z) * p z) (E (fun q => sin (u * fst q)))) ->
  dat r i = p (bget x i).
Proof.
  intros args Q K X RH S TH Y0 TY X0 H I T0 C1 C2 C3 C4 LW CD F. apply (C70_heston quad x0 mu sigma y0 theta k xi rho t x r i p); auto.
  intro u. rewrite (C63_law mu sigma theta k xi rho u K X ltac:(lra) a1 b1 a2 b2 x0 y0 (bget t i) E) by (auto; lra). apply F.
Qed.
Local Close Scope string_scope.
Print Assumptions C70_shape.
Print Assumptions C70_inversion.
Print Assumptions C70_merton.
Print Assumptions C70_merton_series.
Print Assumptions C70_kou.
Print Assumptions C70_heston.
Print Assumptions C70_heston_law.

(** there are functions that integrate *)
Example C70_ex_quad : integrates (fun f => RInt_gen f (Rbar_locally m_infty) (Rbar_locally p_infty)).
Proof. intros f v H. apply is_RInt_gen_unique. exact H. Qed.
(** jumps of size 0: the standard normal density, at 0 and 1, whatever their frequency *)
Example C70_ex_merton quad lam : integrates quad -> 0 <= lam -> exists r,
  mjd_log_pdf quad (ascalar 1) (mkArr [2%nat] (fun i => INR (nth 0 i O))) 1 (1/2) 1 lam 0 0 = Ok r /\ shp r = [2%nat] /\
  dat r [0%nat] = /sqrt (2*PI) /\ dat r [1%nat] = exp (- (1/2))/sqrt (2*PI).
Proof.
  intros Q L. eexists. split; [reflexivity|]. split; [reflexivity|].
  assert (G : forall i, (i < 2)%nat -> is_series (fun n => poisson_prob lam n * gaussian 0 1 (INR i)) (dat (mkArr [2%nat] (fun i => quad (fun u => pdf_integrand (mjd_log_chf 1 (1/2) 1 lam 0 0) u 1 (INR (nth 0 i O))))) [i])).
  { intros i I. pose proof (C70_merton_series quad 1 (1/2) 1 lam 0 0 (ascalar 1) (mkArr [2%nat] (fun i => INR (nth 0 i O))) _ [i] Q R1_neq_R0 L eq_refl ltac:(constructor; [exact I|constructor]) ltac:(cbn; lra)) as H.
    cbv zeta in H. change (bget (ascalar 1) [i]) with 1 in H. rewrite ln_1, Rmult_1_r in H.
    eapply ser_ext; [exact H| |reflexivity]. intro n. cbv beta. f_equal. f_equal; [field|ring]. }
  assert (V : forall i, (i < 2)%nat -> dat (mkArr [2%nat] (fun i => quad (fun u => pdf_integrand (mjd_log_chf 1 (1/2) 1 lam 0 0) u 1 (INR (nth 0 i O))))) [i] = gaussian 0 1 (INR i)).
  { intros i I. rewrite <- (is_series_unique _ _ (G i I)). apply is_series_unique. eapply ser_ext; [apply (ser_scal (gaussian 0 1 (INR i)) _ _ (poisson_series lam))| |ring].
    intro n. cbv beta. ring. }
  split.
  - etransitivity; [apply (V 0%nat); lia|]. unfold gaussian. cbn [INR]. replace (- ((0 - 0)^2/(2*1))) with 0 by field. rewrite exp_0. rewrite Rmult_1_r. unfold Rdiv. ring.
  - etransitivity; [apply (V 1%nat); lia|]. unfold gaussian. cbn [INR]. replace (- ((1 - 0)^2/(2*1))) with (- (1/2)) by field. rewrite Rmult_1_r. reflexivity.
Qed.
