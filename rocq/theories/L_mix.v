(** Mixtures with Poisson weights. *)
From Coq Require Import Reals Lra Psatz Lia.
From Coquelicot Require Import Coquelicot.
From Verif Require Import S_dist M_analytical S_analytical L_complex L_gauss L_gauss2 L_dist L_gamma L_cir L_line L_fourier S_pdf.
Local Open Scope R_scope.

(** *** shifts and reflections *)
Lemma line_shift f v c : cont_line f -> line f v -> line (fun z => f (c + z)) v.
Proof.
  intros C H. apply line_intro.
  - intro z. apply (continuous_comp (fun z => c + z) f); [|apply C]. apply (ex_derive_continuous (V := R_NormedModule)). auto_derive; auto.
  - intros eps EP. destruct (line_elim f v H eps EP) as (M & MP & K). exists (M + Rabs c). pose proof (Rabs_pos c). split; [lra|]. intros a b A B.
    assert (E : RInt (fun z => f (c + z)) a b = RInt f (1*a + c) (1*b + c)).
    { rewrite <- (RInt_comp_lin (V := R_CompleteNormedModule) f 1 c a b) by (apply cint; auto). apply RInt_ext. intros z _. replace (c + z) with (1*z + c) by ring. symmetry. apply (scal_one (V := R_ModuleSpace)). }
    rewrite E. pose proof (Rle_abs c). pose proof (Rle_abs (- c)). rewrite Rabs_Ropp in *. apply K; lra.
Qed.
Lemma line_opp f v : cont_line f -> line f v -> line (fun z => f (- z)) v.
Proof.
  intros C H. apply line_intro.
  - intro z. apply (continuous_comp (fun z => - z) f); [|apply C]. apply (ex_derive_continuous (V := R_NormedModule)). auto_derive; auto.
  - intros eps EP. destruct (line_elim f v H eps EP) as (M & MP & K). exists M. split; [lra|]. intros a b A B.
    assert (E : RInt (fun z => f (- z)) a b = RInt f (- b) (- a)).
    { rewrite <- (Ropp_involutive (RInt (fun z => f (- z)) a b)). rewrite <- (opp_RInt_swap f (- a) (- b)) by (apply cint; auto).
      unfold opp. simpl. f_equal. replace (- a) with (-1*a + 0) by ring. replace (- b) with (-1*b + 0) by ring.
      rewrite <- (RInt_comp_lin (V := R_CompleteNormedModule) f (-1) 0 a b) by (apply cint; auto).
      rewrite <- (RInt_opp (V := R_CompleteNormedModule)). 2: { apply cint. intro z. apply (continuous_comp (fun z => - z) f); [|apply C]. apply (ex_derive_continuous (V := R_NormedModule)). auto_derive; auto. }
      apply RInt_ext. intros z _. unfold opp, scal. simpl. unfold mult. simpl. replace (-1*z + 0) with (- z) by ring. match goal with |- ?a = ?b => change (@eq R a b) end. ring. }
    rewrite E. apply K; lra.
Qed.
(** the inverse transform, at any point *)
Lemma inversion (p : R -> R) (c : R -> C) D V x : cont_line p -> (forall y, 0 <= p y) -> line p 1 -> fourier line (fun y => y) p c ->
  cont_line D -> line D V -> (forall u, Cmod (c u) <= D u) ->
  line (fun u => cos (u*x) * fst (c u) + sin (u*x) * snd (c u)) (2*PI*p x).
Proof.
  intros Cp Pp Lp F CD LD BD.
  replace (p x) with (p (x + 0)) by (f_equal; ring).
  apply (invert (fun z => p (x + z)) _ D 1 V); auto.
  - intro z. apply (continuous_comp (fun z => x + z) p); [|apply Cp]. apply (ex_derive_continuous (V := R_NormedModule)). auto_derive; auto.
  - apply line_shift; auto.
  - intro u. destruct (F u) as [Fc Fs].
    assert (H : line (fun y => cos (u*(y - x)) * p y) (cos (u*x) * fst (c u) + sin (u*x) * snd (c u))).
    { eapply line_ext; [apply line_plus; [apply (line_scal _ _ (cos (u*x)) Fc)|apply (line_scal _ _ (sin (u*x)) Fs)]|].
      intro y. cbv beta. replace (u*(y - x)) with (u*y - u*x) by ring. rewrite cos_minus. ring. }
    eapply line_ext; [apply (line_shift (fun y => cos (u*(y - x)) * p y) _ x)|].
    + intro y. apply (continuous_mult (K := R_AbsRing) (fun y => cos (u*(y - x))) p); [|apply Cp]. apply (ex_derive_continuous (V := R_NormedModule)). auto_derive; auto.
    + exact H.
    + intro z. cbv beta. replace (x + z - x) with z by ring. reflexivity.
  - intro u. eapply Rle_trans; [|apply BD]. set (a := fst (c u)). set (b := snd (c u)).
    assert (E : Cmod (c u) = sqrt (a^2 + b^2)) by reflexivity. rewrite E. rewrite <- sqrt_Rsqr_abs. apply sqrt_le_1_alt.
    unfold Rsqr. pose proof (sin2_cos2 (u*x)) as Y. unfold Rsqr in Y. set (s := sin (u*x)) in *. set (k := cos (u*x)) in *.
    assert (0 <= (k*b - s*a)*(k*b - s*a)) by apply Rle_0_sqr.
    replace (a^2 + b^2) with ((s*s + k*k)*(a*a + b*b)) by (rewrite Y; ring). nra.
Qed.

(** *** series of functions *)
Lemma sum_line (f : nat -> R -> R) J N : (forall n, line (f n) (J n)) -> line (fun x => sum_n (fun n => f n x) N) (sum_n J N).
Proof.
  intro H. induction N.
  - rewrite sum_O. eapply line_ext; [apply (H O)|]. intro x. rewrite sum_O. reflexivity.
  - rewrite sum_Sn. eapply line_ext; [apply line_plus; [exact IHN|apply (H (S N))]|]. intro x. rewrite sum_Sn. reflexivity.
Qed.
(** remainders *)
Lemma rest_small (M : nat -> R) eps : (forall n, 0 <= M n) -> ex_series M -> 0 < eps -> exists N, ex_series (fun k => M (S N + k)%nat) /\ 0 <= Series (fun k => M (S N + k)%nat) < eps.
Proof.
  intros P [m EM] EP. assert (EM' := EM). apply is_series_Reals in EM'. destruct (EM' _ EP) as [N HN]. exists N. specialize (HN N (Nat.le_refl N)).
  assert (X : ex_series (fun k => M (S N + k)%nat)) by (apply (ex_series_incr_n M (S N)); exists m; exact EM). split; [exact X|].
  unfold R_dist in HN. rewrite <- (is_series_unique _ _ EM), (Series_incr_n M (S N)) in HN by (try lia; exists m; exact EM).
  simpl pred in HN. rewrite <- sum_n_Reals in *. apply Rabs_def2 in HN. split; [|lra]. apply series_ge0; auto.
Qed.
Lemma rest_bound (u M : nat -> R) s N : is_series u s -> (forall n, Rabs (u n) <= M n) -> ex_series (fun k => M (S N + k)%nat) ->
  Rabs (s - sum_n u N) <= Series (fun k => M (S N + k)%nat).
Proof.
  intros H B X. rewrite <- (is_series_unique _ _ H), (Series_incr_n u (S N)) by (try lia; exists s; exact H). simpl pred. rewrite <- sum_n_Reals.
  replace (sum_n u N + Series (fun k => u (S N + k)%nat) - sum_n u N) with (Series (fun k => u (S N + k)%nat)) by ring.
  assert (XA : ex_series (fun k => Rabs (u (S N + k)%nat))).
  { apply (ex_series_le (K := R_AbsRing) (V := R_CompleteNormedModule) _ (fun k => M (S N + k)%nat)); auto. intro n. unfold norm. simpl. unfold abs. simpl. rewrite Rabs_Rabsolu. apply B. }
  eapply Rle_trans; [apply Series_Rabs; exact XA|]. apply Series_le; auto. intro n. split; [apply Rabs_pos|apply B].
Qed.
(** uniformly convergent series of continuous functions *)
Lemma series_cont (f : nat -> R -> R) (F : R -> R) (M : nat -> R) : (forall n, cont_line (f n)) -> (forall x, is_series (fun n => f n x) (F x)) ->
  (forall n x, Rabs (f n x) <= M n) -> ex_series M -> cont_line F.
Proof.
  intros C SF B X x P [e HP]. assert (PM : forall n, 0 <= M n) by (intro n; eapply Rle_trans; [apply Rabs_pos|apply (B n 0)]).
  assert (E3 : 0 < e/3) by (destruct e; simpl in *; lra). destruct (rest_small M (e/3) PM X E3) as (N & XN & R0 & R1). set (tl := Series (fun k => M (S N + k)%nat)) in *.
  pose proof (sum_cont f N x (fun n => C n x)) as TC.
  specialize (TC (ball (sum_n (fun n => f n x) N) (mkposreal _ E3)) (ex_intro _ (mkposreal _ E3) (fun y H => H))).
  destruct TC as [d TC]. exists d. intros y Y. apply HP. specialize (TC y Y).
  unfold ball in *. simpl in *. unfold AbsRing_ball, abs, minus, plus, opp in *. simpl in *.
  pose proof (rest_bound _ M _ N (SF x) (fun n => B n x) XN) as E1. pose proof (rest_bound _ M _ N (SF y) (fun n => B n y) XN) as E2. fold tl in E1, E2.
  set (a := sum_n (fun n => f n x) N) in *. set (b := sum_n (fun n => f n y) N) in *.
  replace (F y + - F x) with ((F y - b) + ((b + - a) + - (F x - a))) by ring.
  eapply Rle_lt_trans; [apply Rabs_triang|]. eapply Rle_lt_trans; [apply Rplus_le_compat_l, Rabs_triang|]. rewrite Rabs_Ropp.
  apply Rlt_le_trans with (tl + (e/3 + tl)); [|lra]. apply Rplus_le_lt_compat; [exact E2|]. apply Rplus_lt_le_compat; [exact TC|exact E1].
Qed.
(** and their integrals, when they are dominated by functions of which the integrals have a sum *)
Lemma series_line (f g : nat -> R -> R) (F : R -> R) (J K M : nat -> R) (s : R) :
  (forall n, cont_line (f n)) -> (forall n, cont_line (g n)) -> (forall x, is_series (fun n => f n x) (F x)) ->
  (forall n x, Rabs (f n x) <= g n x) -> (forall n x, g n x <= M n) -> ex_series M ->
  (forall n, line (f n) (J n)) -> (forall n, line (g n) (K n)) -> ex_series K -> is_series J s -> line F s.
Proof.
  intros Cf Cg SF B BM XM LJ LK XK SJ.
  assert (Pg : forall n x, 0 <= g n x) by (intros n x; eapply Rle_trans; [apply Rabs_pos|apply B]).
  assert (PM : forall n, 0 <= M n) by (intro n; eapply Rle_trans; [apply (Pg n 0)|apply BM]).
  assert (PK : forall n, 0 <= K n) by (intro n; apply (line_ge0 (g n)); auto).
  assert (BfM : forall n x, Rabs (f n x) <= M n) by (intros; eapply Rle_trans; [apply B|apply BM]).
  assert (CF : cont_line F) by (apply (series_cont f F M); auto).
  assert (BJ : forall n, Rabs (J n) <= K n).
  { intro n. pose proof (line_dom (f n) (g n) _ _ 0 0 (LJ n) (LK n) (Cf n) (Cg n) (B n) ltac:(lra)) as H. rewrite !RInt_point in H. change (zero : R) with 0 in H. rewrite !Rminus_0_r in H. exact H. }
  apply line_intro; auto. intros eps EP.
  destruct (rest_small K (eps/4) PK XK ltac:(lra)) as (N & XN & R0 & R1).
  destruct (line_elim _ _ (sum_line f J N LJ) (eps/4) ltac:(lra)) as (W & WP & HW). exists W. split; auto. intros a b A A'.
  specialize (HW a b A A'). pose proof (rest_bound J K s N SJ BJ XN) as E1.
  assert (CS : cont_line (fun x => sum_n (fun n => f n x) N)) by (intro x; apply sum_cont; intro; apply Cf).
  assert (E2 : Rabs (RInt F a b - RInt (fun x => sum_n (fun n => f n x) N) a b) <= eps/4 + eps/4).
  { assert (EB : 0 < eps/4/(b - a)) by (apply Rdiv_lt_0_compat; lra).
    destruct (rest_small M _ PM XM EB) as (N' & XN' & R0' & R1').
    set (N2 := Nat.max N N').
    assert (CS2 : forall m, cont_line (fun x => sum_n (fun n => f n x) m)) by (intros m x; apply sum_cont; intro; apply Cf).
    (* up to N2 *)
    assert (XN2 : ex_series (fun k => M (S N2 + k)%nat)) by (apply (ex_series_incr_n M (S N2)); auto).
    assert (T2 : Series (fun k => M (S N2 + k)%nat) <= Series (fun k => M (S N' + k)%nat)).
    { assert (Q1 := Series_incr_n M (S N2) ltac:(lia) XM). assert (Q2 := Series_incr_n M (S N') ltac:(lia) XM). simpl pred in *. rewrite <- sum_n_Reals in Q1, Q2.
      assert (sum_n M N' <= sum_n M N2).
      { unfold N2. generalize (Nat.max N N') (Nat.le_max_r N N'). intros m L. induction L; [lra|]. rewrite sum_Sn. unfold plus. simpl. pose proof (PM (S m)). lra. }
      lra. }
    assert (S1 : Rabs (RInt F a b - RInt (fun x => sum_n (fun n => f n x) N2) a b) <= eps/4).
    { rewrite <- RInt_minus_ by auto. apply Rle_trans with ((b - a) * (eps/4/(b - a))); [|right; field; lra].
      apply Rle_trans with (RInt (fun _ => eps/4/(b - a)) a b); [|rewrite RInt_const; right; reflexivity].
      apply RInt_dom.
      - intro x. apply (continuous_minus (V := R_NormedModule) F (fun x => sum_n (fun n => f n x) N2)); [apply CF|apply CS2].
      - apply cont_const.
      - intro x. pose proof (rest_bound _ M _ N2 (SF x) (fun n => BfM n x) XN2). lra.
      - lra. }
    (* between N and N2 *)
    assert (S2 : Rabs (RInt (fun x => sum_n (fun n => f n x) N2) a b - RInt (fun x => sum_n (fun n => f n x) N) a b) <= sum_n K N2 - sum_n K N).
    { unfold N2. generalize (Nat.max N N') (Nat.le_max_l N N'). intros m L. induction L.
      - rewrite !Rminus_diag_eq by reflexivity. rewrite Rabs_R0. lra.
      - assert (E : RInt (fun x => sum_n (fun n => f n x) (S m)) a b = RInt (fun x => sum_n (fun n => f n x) m) a b + RInt (f (S m)) a b).
        { rewrite <- (RInt_plus (V := R_CompleteNormedModule)) by (apply cint; auto). apply RInt_ext. intros x _. rewrite sum_Sn. reflexivity. }
        rewrite E, sum_Sn. unfold plus. simpl.
        assert (Rabs (RInt (f (S m)) a b) <= K (S m)). { eapply Rle_trans; [apply (RInt_dom _ (g (S m))); auto; lra|]. apply int_le_line; auto. lra. }
        match goal with |- Rabs (?x + ?y - ?z) <= _ => replace (x + y - z) with ((x - z) + y) by ring end. eapply Rle_trans; [apply Rabs_triang|]. lra. }
    assert (S3 : sum_n K N2 - sum_n K N <= eps/4).
    { destruct XK as [k XK]. pose proof (partial_le K k N2 PK XK). assert (Q := Series_incr_n K (S N) ltac:(lia) (ex_intro _ k XK)). simpl pred in Q. rewrite <- sum_n_Reals, (is_series_unique _ _ XK) in Q. lra. }
    match goal with |- Rabs (?v - ?z) <= _ => replace (v - z) with ((v - RInt (fun y => sum_n (fun n => f n y) N2) a b) + (RInt (fun y => sum_n (fun n => f n y) N2) a b - z)) by ring end.
    eapply Rle_trans; [apply Rabs_triang|]. lra. }
  match goal with |- Rabs (?v - ?z) < _ => replace (v - z) with ((v - RInt (fun y => sum_n (fun n => f n y) N) a b) + ((RInt (fun y => sum_n (fun n => f n y) N) a b - sum_n J N) + - (s - sum_n J N))) by ring end.
  eapply Rle_lt_trans; [apply Rabs_triang|]. eapply Rle_lt_trans; [apply Rplus_le_compat_l, Rabs_triang|]. rewrite Rabs_Ropp. lra.
Qed.

(** *** exponentials of complex numbers as series *)
Fixpoint cpw (J : C) (n : nat) : C := match n with O => RtoC 1 | S n => Cmult J (cpw J n) end.
Lemma cpw_mod J n : Cmod (cpw J n) = Cmod J ^ n.
Proof. induction n; [simpl; apply Cmod_1|]. simpl. rewrite Cmod_mult, IHn. reflexivity. Qed.
Lemma fst_le_mod (z : C) : Rabs (fst z) <= Cmod z.
Proof. eapply Rle_trans; [apply Rmax_l|apply Rmax_Cmod]. Qed.
Lemma snd_le_mod (z : C) : Rabs (snd z) <= Cmod z.
Proof. eapply Rle_trans; [apply Rmax_r|apply Rmax_Cmod]. Qed.
Lemma cv_all (c : nat -> R) (K : R) : 0 <= K -> (forall n, Rabs (c n) <= K^n/INR (fact n)) -> CV_radius c = p_infty.
Proof.
  intros K0 B.
  assert (H : forall x : R, Rbar_le x (CV_radius c)).
  { intro x. unfold CV_radius. apply (proj1 (Lub_Rbar_correct (CV_disk c))). unfold CV_disk.
    apply (ex_series_le (K := R_AbsRing) (V := R_CompleteNormedModule) _ (fun n => (K*Rabs x)^n/INR (fact n))); [|exists (exp (K*Rabs x)); apply exp_series].
    intro n. unfold norm. simpl. unfold abs. simpl. rewrite Rabs_Rabsolu, Rabs_mult, <- RPow_abs, Rpow_mult_distr. unfold Rdiv. specialize (B n). unfold Rdiv in B.
    pose proof (pow_le (Rabs x) n (Rabs_pos x)). apply Rle_trans with (K^n*/INR (fact n)*Rabs x^n); [apply Rmult_le_compat_r; auto|right; ring]. }
  destruct (CV_radius c) as [r| |] eqn:E; auto.
  - exfalso. specialize (H (r + 1)). simpl in H. lra.
  - exfalso. specialize (H 0). simpl in H. auto.
Qed.
Section Cexp.
Variable J : C.
Let cc n := fst (cpw J n)/INR (fact n).
Let cs n := snd (cpw J n)/INR (fact n).
Lemma abs_div_fact x n : Rabs (x/INR (fact n)) = Rabs x/INR (fact n).
Proof. unfold Rdiv. rewrite Rabs_mult, (Rabs_pos_eq (/ INR (fact n))); auto. left. apply Rinv_0_lt_compat, INR_fact_lt_0. Qed.
Lemma cc_radius : CV_radius cc = p_infty.
Proof. apply (cv_all _ (Cmod J)); [apply Cmod_ge_0|]. intro n. unfold cc. rewrite abs_div_fact, <- cpw_mod. unfold Rdiv. apply Rmult_le_compat_r; [left; apply Rinv_0_lt_compat, INR_fact_lt_0|apply fst_le_mod]. Qed.
Lemma cs_radius : CV_radius cs = p_infty.
Proof. apply (cv_all _ (Cmod J)); [apply Cmod_ge_0|]. intro n. unfold cs. rewrite abs_div_fact, <- cpw_mod. unfold Rdiv. apply Rmult_le_compat_r; [left; apply Rinv_0_lt_compat, INR_fact_lt_0|apply snd_le_mod]. Qed.
Let F := PSeries cc.
Let G := PSeries cs.
Lemma cc_ex x : ex_pseries cc x. Proof. apply CV_radius_inside. rewrite cc_radius. exact I. Qed.
Lemma cs_ex x : ex_pseries cs x. Proof. apply CV_radius_inside. rewrite cs_radius. exact I. Qed.
Lemma F_derive x : is_derive F x (fst J * F x - snd J * G x).
Proof.
  assert (E : fst J * F x - snd J * G x = PSeries (PS_derive cc) x).
  { unfold F, G. rewrite <- (PSeries_scal (fst J) cc), <- (PSeries_scal (snd J) cs), <- PSeries_minus by (apply ex_pseries_scal; [intros; apply Rmult_comm|]; [apply cc_ex|apply cs_ex] || (apply ex_pseries_scal; [apply Rmult_comm|apply cc_ex]) || (apply ex_pseries_scal; [apply Rmult_comm|apply cs_ex])).
    apply PSeries_ext. intro n. unfold PS_minus, PS_scal, PS_opp, PS_plus, PS_derive, scal, plus, opp. cbn -[INR]. unfold mult. cbn -[INR]. unfold cc, cs. cbn [cpw]. rewrite L_cir.fact_S. pose proof (L_cir.fact_ne n). cbn [fst snd Cmult]. rewrite S_INR. pose proof (pos_INR n).
    match goal with |- ?a = ?b => change (@eq R a b) end. field. split; [auto|lra]. }
  rewrite E. apply is_derive_PSeries. rewrite cc_radius. exact I.
Qed.
Lemma G_derive x : is_derive G x (snd J * F x + fst J * G x).
Proof.
  assert (E : snd J * F x + fst J * G x = PSeries (PS_derive cs) x).
  { unfold F, G. rewrite <- (PSeries_scal (snd J) cc), <- (PSeries_scal (fst J) cs), <- PSeries_plus by ((apply ex_pseries_scal; [apply Rmult_comm|apply cc_ex]) || (apply ex_pseries_scal; [apply Rmult_comm|apply cs_ex])).
    apply PSeries_ext. intro n. unfold PS_scal, PS_plus, PS_derive, scal, plus. cbn -[INR]. unfold mult. cbn -[INR]. unfold cc, cs. cbn [cpw]. rewrite L_cir.fact_S. pose proof (L_cir.fact_ne n). cbn [fst snd Cmult]. rewrite S_INR. pose proof (pos_INR n).
    match goal with |- ?a = ?b => change (@eq R a b) end. field. split; [auto|lra]. }
  rewrite E. apply is_derive_PSeries. rewrite cs_radius. exact I.
Qed.
Lemma const_der (h : R -> R) x : (forall t, is_derive h t 0) -> h x = h 0.
Proof.
  intro H. destruct (Rtotal_order 0 x) as [L|[<-|L]]; auto.
  - symmetry. apply (eq_is_derive (V := R_NormedModule) h 0 x); auto; intros; apply H.
  - apply (eq_is_derive (V := R_NormedModule) h x 0); auto; intros; apply H.
Qed.
Lemma FG_closed x : F x = exp (fst J * x) * cos (snd J * x) /\ G x = exp (fst J * x) * sin (snd J * x).
Proof.
  set (al := fst J). set (be := snd J).
  assert (F0 : F 0 = 1). { unfold F. rewrite PSeries_0. unfold cc. simpl. field. }
  assert (G0 : G 0 = 0). { unfold G. rewrite PSeries_0. unfold cs. simpl. field. }
  assert (DF := F_derive). assert (DG := G_derive). fold al be in DF, DG.
  assert (U : exp (- (al*x))*(F x*cos (be*x) + G x*sin (be*x)) = 1).
  { rewrite (const_der (fun x => exp (- (al*x))*(F x*cos (be*x) + G x*sin (be*x)))).
    - rewrite F0, G0, !Rmult_0_r, Ropp_0, exp_0, cos_0. ring.
    - intro t. auto_derive; [split; [eexists; apply DF|split; [eexists; apply DG|auto]]|]. change (Derive (fun y => F y) t) with (Derive F t). change (Derive (fun y => G y) t) with (Derive G t). rewrite (is_derive_unique _ _ _ (DF t)), (is_derive_unique _ _ _ (DG t)). ring. }
  assert (W : exp (- (al*x))*(G x*cos (be*x) - F x*sin (be*x)) = 0).
  { rewrite (const_der (fun x => exp (- (al*x))*(G x*cos (be*x) - F x*sin (be*x)))).
    - rewrite F0, G0, !Rmult_0_r, Ropp_0, exp_0, sin_0. ring.
    - intro t. auto_derive; [split; [eexists; apply DG|split; [eexists; apply DF|auto]]|]. change (Derive (fun y => F y) t) with (Derive F t). change (Derive (fun y => G y) t) with (Derive G t). rewrite (is_derive_unique _ _ _ (DF t)), (is_derive_unique _ _ _ (DG t)). ring. }
  rewrite exp_Ropp in U, W. pose proof (exp_pos (al*x)) as EP. set (e := exp (al*x)) in *.
  assert (U' : F x*cos (be*x) + G x*sin (be*x) = e) by (apply Rmult_eq_reg_l with (/e); [rewrite U; field; lra|apply Rinv_neq_0_compat; lra]).
  assert (W' : G x*cos (be*x) - F x*sin (be*x) = 0) by (apply Rmult_eq_reg_l with (/e); [rewrite W; ring|apply Rinv_neq_0_compat; lra]).
  pose proof (sin2_cos2 (be*x)) as Y. unfold Rsqr in Y. set (s := sin (be*x)) in *. set (k := cos (be*x)) in *.
  split.
  - replace (F x) with ((s*s + k*k)*F x) by (rewrite Y; ring). rewrite <- U'. transitivity ((F x*k + G x*s)*k - (G x*k - F x*s)*s); [ring|rewrite W'; ring].
  - replace (G x) with ((s*s + k*k)*G x) by (rewrite Y; ring). rewrite <- U'. transitivity ((F x*k + G x*s)*s + (G x*k - F x*s)*k); [ring|rewrite W'; ring].
Qed.
Lemma cexp_series l : is_series (fun n => l^n/INR (fact n) * fst (cpw J n)) (exp (fst J * l) * cos (snd J * l)) /\
                      is_series (fun n => l^n/INR (fact n) * snd (cpw J n)) (exp (fst J * l) * sin (snd J * l)).
Proof.
  destruct (FG_closed l) as [HF HG]. rewrite <- HF, <- HG. split.
  - pose proof (PSeries_correct _ _ (cc_ex l)) as H. unfold is_pseries in H. eapply ser_ext; [exact H| |reflexivity].
    intro n. unfold scal. simpl. unfold mult. simpl. rewrite pow_n_pow. unfold cc. match goal with |- ?a = ?b => change (@eq R a b) end. unfold Rdiv. ring.
  - pose proof (PSeries_correct _ _ (cs_ex l)) as H. unfold is_pseries in H. eapply ser_ext; [exact H| |reflexivity].
    intro n. unfold scal. simpl. unfold mult. simpl. rewrite pow_n_pow. unfold cs. match goal with |- ?a = ?b => change (@eq R a b) end. unfold Rdiv. ring.
Qed.
End Cexp.

(** *** mixtures *)
Lemma poisson_series l : is_series (poisson_prob l) 1.
Proof.
  eapply ser_ext; [apply (ser_scal (exp (- l))), (exp_series l)| |].
  - intro n. unfold poisson_prob. cbv beta. unfold Rdiv. ring.
  - rewrite <- exp_plus. replace (- l + l) with 0 by ring. apply exp_0.
Qed.
Lemma poisson_pos l n : 0 <= l -> 0 <= poisson_prob l n.
Proof.
  intro L. unfold poisson_prob, Rdiv. apply Rmult_le_pos; [|left; apply Rinv_0_lt_compat, INR_fact_lt_0]. apply Rmult_le_pos; [left; apply exp_pos|apply pow_le; auto].
Qed.
Lemma sin_le1 x : Rabs (sin x) <= 1. Proof. pose proof (SIN_bound x). apply Rabs_le. lra. Qed.
Lemma cos_le1 x : Rabs (cos x) <= 1. Proof. pose proof (COS_bound x). apply Rabs_le. lra. Qed.
Section Mixture.
Variables (l B : R) (f : nat -> R -> R) (c0 J : R -> C).
Hypotheses (L0 : 0 <= l) (Cf : forall n, cont_line (f n)) (Pf : forall n x, 0 <= f n x) (Bf : forall n x, f n x <= B) (Lf : forall n, line (f n) 1)
           (Ff : forall n, fourier line (fun x => x) (f n) (fun u => Cmult (c0 u) (cpw (J u) n))).
Let w := poisson_prob l.
Lemma mix_exists x : ex_series (fun n => w n * f n x).
Proof.
  apply (ex_series_le (K := R_AbsRing) (V := R_CompleteNormedModule) _ (fun n => B * w n)).
  - intro n. unfold norm. simpl. unfold abs. simpl. rewrite Rabs_pos_eq by (apply Rmult_le_pos; [apply poisson_pos; auto|apply Pf]). rewrite Rmult_comm. apply Rmult_le_compat_r; [apply poisson_pos; auto|apply Bf].
  - exists (B*1). apply (ser_scal B). apply poisson_series.
Qed.
Variable p : R -> R.
Hypothesis Sp : forall x, is_series (fun n => w n * f n x) (p x).
Lemma w_pos n : 0 <= w n. Proof. apply poisson_pos; auto. Qed.
Lemma mix_pos x : 0 <= p x.
Proof. rewrite <- (is_series_unique _ _ (Sp x)). apply series_ge0; [|eexists; apply Sp]. intro n. apply Rmult_le_pos; [apply w_pos|apply Pf]. Qed.
Lemma mix_gen (k : R -> R) (K : nat -> R) s : (forall x, continuous k x) -> (forall x, Rabs (k x) <= 1) -> (forall n, line (fun x => k x * f n x) (K n)) ->
  is_series (fun n => w n * K n) s -> line (fun x => k x * p x) s.
Proof.
  intros Ck Bk LK SK.
  apply (series_line (fun n x => w n * (k x * f n x)) (fun n x => w n * f n x) _ (fun n => w n * K n) (fun n => w n * 1) (fun n => w n * B)); auto.
  - intro n. apply cont_mult; [apply cont_const|apply cont_mult; auto].
  - intro n. apply cont_mult; [apply cont_const|auto].
  - intro x. eapply ser_ext; [apply (ser_scal (k x)), (Sp x)| |reflexivity]. intro n. cbv beta. ring.
  - intros n x. rewrite !Rabs_mult, (Rabs_pos_eq (w n)), (Rabs_pos_eq (f n x)) by (auto; apply w_pos). apply Rmult_le_compat_l; [apply w_pos|].
    rewrite <- (Rmult_1_l (f n x)) at 2. apply Rmult_le_compat_r; auto.
  - intros n x. apply Rmult_le_compat_l; [apply w_pos|apply Bf].
  - exists (B*1). eapply ser_ext; [apply (ser_scal B), (poisson_series l)|intro; cbv beta; unfold w; ring|reflexivity].
  - intro n. apply line_scal. apply LK.
  - intro n. apply line_scal. apply Lf.
  - exists (1*1). eapply ser_ext; [apply (ser_scal 1), (poisson_series l)|intro; cbv beta; unfold w; ring|reflexivity].
Qed.
Lemma mix_cont : cont_line p.
Proof.
  apply (series_cont (fun n x => w n * f n x) p (fun n => w n * B)); auto.
  - intro n. apply cont_mult; [apply cont_const|auto].
  - intros n x. rewrite Rabs_pos_eq by (apply Rmult_le_pos; [apply w_pos|apply Pf]). apply Rmult_le_compat_l; [apply w_pos|apply Bf].
  - exists (B*1). eapply ser_ext; [apply (ser_scal B), (poisson_series l)|intro; cbv beta; unfold w; ring|reflexivity].
Qed.
Lemma mix_line : line p 1.
Proof.
  eapply line_ext; [apply (mix_gen (fun _ => 1) (fun _ => 1) 1)|intro; cbv beta; ring].
  - intro. apply continuous_const.
  - intro. rewrite Rabs_R1. lra.
  - intro n. eapply line_ext; [exact (Lf n)|intro; cbv beta; ring].
  - eapply ser_ext; [apply (poisson_series l)|intro; unfold w; ring|reflexivity].
Qed.
Lemma mix_fourier : fourier line (fun x => x) p (fun u => Cmult (c0 u) (compound_poisson_chf l 1 (J u))).
Proof.
  intro u. destruct (cexp_series (J u) l) as [SC SS]. 
  assert (E : compound_poisson_chf l 1 (J u) = (exp (- l) * (exp (fst (J u) * l) * cos (snd (J u) * l)), exp (- l) * (exp (fst (J u) * l) * sin (snd (J u) * l)))).
  { unfold compound_poisson_chf, cexp. destruct (J u) as [a b]. cbn [fst snd Cmult Cminus Cplus Copp RtoC].
    match goal with |- (exp ?x * cos ?y, _) = _ => assert (EX : x = - l + a*l) by ring; assert (EY : y = b*l) by ring; rewrite EX, EY end.
    rewrite exp_plus. f_equal; ring. }
  set (A := exp (fst (J u) * l) * cos (snd (J u) * l)) in *. set (D := exp (fst (J u) * l) * sin (snd (J u) * l)) in *.
  split.
  - apply (mix_gen (fun x => cos (u*x)) (fun n => fst (Cmult (c0 u) (cpw (J u) n)))).
    + intro x. apply (ex_derive_continuous (V := R_NormedModule)). auto_derive; auto.
    + intro. apply cos_le1.
    + intro n. apply (proj1 (Ff n u)).
    + eapply ser_ext; [apply ser_plus; [apply (ser_scal (exp (- l) * fst (c0 u))), SC|apply (ser_scal (- (exp (- l) * snd (c0 u)))), SS]| |].
      * intro n. cbv beta. unfold w, poisson_prob, Rdiv. cbn [fst Cmult]. ring.
      * rewrite E. cbn [fst snd Cmult]. ring.
  - apply (mix_gen (fun x => sin (u*x)) (fun n => snd (Cmult (c0 u) (cpw (J u) n)))).
    + intro x. apply (ex_derive_continuous (V := R_NormedModule)). auto_derive; auto.
    + intro. apply sin_le1.
    + intro n. apply (proj2 (Ff n u)).
    + eapply ser_ext; [apply ser_plus; [apply (ser_scal (exp (- l) * fst (c0 u))), SS|apply (ser_scal (exp (- l) * snd (c0 u))), SC]| |].
      * intro n. cbv beta. unfold w, poisson_prob, Rdiv. cbn [snd Cmult]. ring.
      * rewrite E. cbn [fst snd Cmult]. ring.
Qed.
End Mixture.
