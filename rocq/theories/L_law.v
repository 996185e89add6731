(** Lemmas on means of exponentials of what is drawn from a generator. *)
From Coq Require Import List Arith ZArith Reals Lra Lia.
From Coquelicot Require Import Coquelicot.
From Verif Require Import Base BaseNum BaseArr BaseNd M_source M_rv S_rv L_rv M_analytical S_analytical M_dist S_dist L_dist S_pdf L_line L_fourier L_mix L_cir S_euler S_law P_chf.
Import ListNotations.
Local Open Scope R_scope.

(** *** products and sums *)
Lemma cprod_ext {A} (f h : A -> C) l : (forall x, In x l -> f x = h x) -> cprod f l = cprod h l.
Proof.
  intro H. unfold cprod. induction l as [|a l IH]; [reflexivity|]. cbn [map fold_right]. rewrite H by (left; auto). f_equal. apply IH. intros; apply H; right; auto.
Qed.
Lemma cprod_mult {A} (f h : A -> C) l : cprod (fun x => f x * h x)%C l = (cprod f l * cprod h l)%C.
Proof. unfold cprod. induction l as [|a l IH]; cbn [map fold_right]; [ring|]. rewrite IH. ring. Qed.
Lemma cprod_app {A} (f : A -> C) l l' : cprod f (l ++ l') = (cprod f l * cprod f l')%C.
Proof. unfold cprod. induction l as [|a l IH]; cbn [map fold_right app]; [ring|]. rewrite IH. ring. Qed.
Lemma cprod_one {A} (l : list A) : cprod (fun _ => 1%C) l = 1%C.
Proof. unfold cprod. induction l as [|a l IH]; cbn [map fold_right]; [ring|]. rewrite IH. ring. Qed.
Lemma cexp_csum {A} (f : A -> C) l : cexp (csum f l) = cprod (fun x => cexp (f x)) l.
Proof. unfold csum, cprod. induction l as [|a l IH]; cbn [map fold_right]; [apply cexp_0|]. rewrite cexp_add, IH. reflexivity. Qed.
Lemma csum_ext {A} (f h : A -> C) l : (forall x, In x l -> f x = h x) -> csum f l = csum h l.
Proof.
  intro H. unfold csum. induction l as [|a l IH]; [reflexivity|]. cbn [map fold_right]. rewrite H by (left; auto). f_equal. apply IH. intros; apply H; right; auto.
Qed.
Lemma csum_plus {A} (f h : A -> C) l : csum (fun x => f x + h x)%C l = (csum f l + csum h l)%C.
Proof. unfold csum. induction l as [|a l IH]; cbn [map fold_right]; [ring|]. rewrite IH. ring. Qed.

(** *** means of exponentials *)
Lemma cmean_ext {A} (M : (A -> R) -> R -> Prop) (f h : A -> C) z : (forall p q v, (forall x, p x = q x) -> M p v -> M q v) ->
  (forall x, f x = h x) -> complex_mean M f z -> complex_mean M h z.
Proof. intros E H [M1 M2]. split; [eapply E; [|exact M1]|eapply E; [|exact M2]]; intro x; cbv beta; rewrite H; reflexivity. Qed.
Lemma normal_exp (z : C) : complex_mean mean_normal (fun x => cexp (z * RtoC x)%C) (cexp (z * z * RtoC (/2))%C).
Proof.
  destruct z as [a b]. destruct (normal_fourier a 1 ltac:(lra) b) as [FC FS].
  assert (K : forall x, exp (a*a/2) * npdf a 1 x = exp (a*x) * (exp (- (x*x/2))/sqrt (2*PI))).
  { intro x. unfold npdf. cbv zeta. replace (exp (a*x) * (exp (- (x*x/2))/sqrt (2*PI))) with (exp (a*x) * exp (- (x*x/2))/sqrt (2*PI)) by (unfold Rdiv; ring).
    rewrite <- exp_plus. replace (exp (a*a/2) * (exp (- ((x - a)/1 * ((x - a)/1)/2))/sqrt (2*PI)/1)) with (exp (a*a/2) * exp (- ((x - a)/1 * ((x - a)/1)/2))/sqrt (2*PI)) by (unfold Rdiv; rewrite Rinv_1; ring).
    rewrite <- exp_plus. f_equal. f_equal. field. }
  assert (V : ((a, b) * (a, b) * RtoC (/2))%C = ((a*a - b*b)/2, a*b)).
  { unfold Cmult. cbn [fst snd RtoC]. apply C_eq; field. }
  assert (E2 : exp ((a*a - b*b)/2) = exp (a*a/2) * exp (- (1*1*b*b/2))) by (rewrite <- exp_plus; f_equal; field).
  unfold normal_chf, cexp in FC, FS. cbn [fst snd] in FC, FS.
  split; unfold mean_normal.
  - eapply line_eq; [eapply line_ext; [exact (line_scal _ _ (exp (a*a/2)) FC)|]|].
    + intro x. cbv beta. unfold cexp. cbn [fst snd Cmult RtoC]. replace (a*x - b*0) with (a*x) by ring. replace (a*0 + b*x) with (b*x) by ring.
      rewrite (Rmult_comm (cos (b*x))), <- Rmult_assoc, K. ring.
    + rewrite V. unfold cexp. cbn [fst snd]. rewrite E2. ring.
  - eapply line_eq; [eapply line_ext; [exact (line_scal _ _ (exp (a*a/2)) FS)|]|].
    + intro x. cbv beta. unfold cexp. cbn [fst snd Cmult RtoC]. replace (a*x - b*0) with (a*x) by ring. replace (a*0 + b*x) with (b*x) by ring.
      rewrite (Rmult_comm (sin (b*x))), <- Rmult_assoc, K. ring.
    + rewrite V. unfold cexp. cbn [fst snd]. rewrite E2. ring.
Qed.
Lemma poisson_exp (l : R) (J : C) : complex_mean (mean_poisson l) (fun n => cpw J (Z.to_nat n)) (cexp (RtoC l * (J - 1))%C).
Proof.
  destruct (cexp_series J l) as [SC SS]. destruct J as [a b].
  assert (V : (RtoC l * ((a, b) - 1))%C = (a*l - l, b*l)) by (unfold Cminus, Cplus, Copp, Cmult; cbn [fst snd RtoC]; apply C_eq; ring).
  rewrite V. split; unfold mean_poisson, cexp; cbn [fst snd].
  - eapply ser_ext; [exact (is_series_scal (V := R_NormedModule) (exp (- l)) _ _ SC)| |].
    + intro n. rewrite Nat2Z.id. unfold scal, poisson_prob. simpl. unfold mult. simpl. match goal with |- ?p = ?q => change (@eq R p q) end. unfold Rdiv. ring.
    + unfold scal. simpl. unfold mult. simpl. replace (a*l - l) with (- l + a*l) by ring. rewrite exp_plus. match goal with |- ?p = ?q => change (@eq R p q) end. ring.
  - eapply ser_ext; [exact (is_series_scal (V := R_NormedModule) (exp (- l)) _ _ SS)| |].
    + intro n. rewrite Nat2Z.id. unfold scal, poisson_prob. simpl. unfold mult. simpl. match goal with |- ?p = ?q => change (@eq R p q) end. unfold Rdiv. ring.
    + unfold scal. simpl. unfold mult. simpl. replace (a*l - l) with (- l + a*l) by ring. rewrite exp_plus. match goal with |- ?p = ?q => change (@eq R p q) end. ring.
Qed.
Lemma exp_neg_mult_lim c : 0 < c -> is_lim (fun e => exp (- (c*e))) p_infty 0.
Proof. apply exp_neg_lim. Qed.
Lemma exp_exp (z : C) : fst z < 1 -> complex_mean mean_exp (fun x => cexp (z * RtoC x)%C) (/ (1 - z))%C.
Proof.
  destruct z as [a b]. cbn [fst]. intro A. set (c := 1 - a). assert (C0 : 0 < c) by (unfold c; lra).
  assert (N : 0 < c*c + b*b) by nra.
  assert (V : (/ (1 - (a, b)))%C = (c/(c*c + b*b), b/(c*c + b*b))).
  { unfold Cinv, Cminus, Cplus, Copp. cbn [fst snd RtoC]. unfold c in *. apply C_eq; field; nra. }
  assert (CL : forall h : R -> R, (forall x, Rabs (h x) <= (Rabs b + c)/(c*c + b*b)) -> is_lim (fun e => exp (- (c*e)) * h e) p_infty 0).
  { intros h B. apply (is_lim_le_le_loc (fun e => - (exp (- (c*e)) * ((Rabs b + c)/(c*c + b*b)))) (fun e => exp (- (c*e)) * ((Rabs b + c)/(c*c + b*b)))).
    - exists 0. intros x _. specialize (B x). apply Rabs_le_between in B. pose proof (exp_pos (- (c*x))). split; nra.
    - replace (Finite 0) with (Rbar_opp (Rbar_mult 0 ((Rabs b + c)/(c*c + b*b)))) by (simpl; f_equal; ring). apply is_lim_opp. apply (is_lim_scal_r (fun e => exp (- (c*e)))). apply exp_neg_lim; auto.
    - replace (Finite 0) with (Rbar_mult 0 ((Rabs b + c)/(c*c + b*b))) by (simpl; f_equal; ring). apply (is_lim_scal_r (fun e => exp (- (c*e)))). apply exp_neg_lim; auto. }
  assert (BD : forall x p q, p*p + q*q = 1 -> Rabs ((b*p - c*q)*x) <= (Rabs b + c)*Rabs x).
  { intros x p q E. rewrite Rabs_mult. apply Rmult_le_compat_r; [apply Rabs_pos|]. unfold Rminus. eapply Rle_trans; [apply Rabs_triang|]. rewrite Rabs_Ropp, !Rabs_mult, (Rabs_pos_eq c) by lra.
    assert (Rabs p <= 1) by (apply Rabs_le; nra). assert (Rabs q <= 1) by (apply Rabs_le; nra). pose proof (Rabs_pos b). pose proof (Rabs_pos p). pose proof (Rabs_pos q). nra. }
  assert (IN : Rabs (/(c*c + b*b)) = /(c*c + b*b)) by (apply Rabs_pos_eq; left; apply Rinv_0_lt_compat; auto).
  rewrite V. unfold cexp. split; unfold mean_exp; cbn [fst snd].
  - set (F := fun e => exp (- (c*e)) * ((b*sin (b*e) - c*cos (b*e))*/(c*c + b*b))).
    replace (c/(c*c + b*b)) with (0 - F 0). 2: { unfold F. rewrite !Rmult_0_r, Ropp_0, exp_0, sin_0, cos_0. field. lra. }
    eapply is_RInt_gen_ext. 2: apply (integral_to_infinity (fun e => exp (- (c*e)) * cos (b*e)) F 0 0).
    + apply filter_forall. intros ab x _. cbn [fst snd Cmult RtoC]. replace (a*x - b*0) with (a*x) by ring. replace (a*0 + b*x) with (b*x) by ring.
      replace (exp (a*x) * cos (b*x) * exp (- x)) with ((exp (a*x) * exp (- x)) * cos (b*x)) by ring. rewrite <- exp_plus. f_equal. f_equal. unfold c. ring.
    + intro x. unfold F. auto_derive; auto. match goal with |- ?p = ?q => change (@eq R p q) end. field. lra.
    + intro x. apply (ex_derive_continuous (V := R_NormedModule)). auto_derive; auto.
    + apply CL. intro x. eapply Rle_trans; [apply BD|rewrite IN; apply Rle_refl]. pose proof (sin2_cos2 (b*x)) as Y. unfold Rsqr in Y. exact Y.
  - set (F := fun e => exp (- (c*e)) * ((b*(- cos (b*e)) - c*sin (b*e))*/(c*c + b*b))).
    replace (b/(c*c + b*b)) with (0 - F 0). 2: { unfold F. rewrite !Rmult_0_r, Ropp_0, exp_0, sin_0, cos_0. field. lra. }
    eapply is_RInt_gen_ext. 2: apply (integral_to_infinity (fun e => exp (- (c*e)) * sin (b*e)) F 0 0).
    + apply filter_forall. intros ab x _. cbn [fst snd Cmult RtoC]. replace (a*x - b*0) with (a*x) by ring. replace (a*0 + b*x) with (b*x) by ring.
      replace (exp (a*x) * sin (b*x) * exp (- x)) with ((exp (a*x) * exp (- x)) * sin (b*x)) by ring. rewrite <- exp_plus. f_equal. f_equal. unfold c. ring.
    + intro x. unfold F. auto_derive; auto. match goal with |- ?p = ?q => change (@eq R p q) end. field. lra.
    + intro x. apply (ex_derive_continuous (V := R_NormedModule)). auto_derive; auto.
    + apply CL. intro x. eapply Rle_trans; [apply BD|rewrite IN; apply Rle_refl]. pose proof (sin2_cos2 (b*x)) as Y. unfold Rsqr in Y. nra.
Qed.
