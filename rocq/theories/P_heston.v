(** The characteristic function of the Heston process: C57 (modulus), C63. *)
From Coq Require Import String List Arith Bool Reals Lra Lia Psatz.
From Coquelicot Require Import Coquelicot.
From Verif Require Import Base M_sde M_presets M_analytical S_analytical S_chf L_coefs L_complex L_heston L_heston2 P_chf.
Local Open Scope R_scope.

Theorem C57_heston_bounded x0 mu sigma y0 theta k xi rho t u : 0 < k -> xi <> 0 -> -1 <= rho <= 1 -> 0 <= theta -> 0 <= y0 -> 0 <= t ->
  Cmod (heston_log_chf x0 mu sigma y0 theta k xi rho t u) <= 1.
Proof.
  intros K X RH TH Y T. rewrite heston_form, cexp_mod.
  pose proof (hD_sign sigma k xi rho u K X RH t T) as SD. pose proof (hL_sign sigma k xi rho u K X RH t T) as SL.
  generalize dependent (hD sigma k xi rho u t). generalize dependent (hL sigma k xi rho u t). intros L SL D SD.
  rewrite <- exp_0. match goal with |- exp ?z <= _ => assert (z <= 0); [|destruct (Req_dec z 0) as [->|]; [lra|left; apply exp_increasing; lra]] end.
  unfold cj. simpl. assert (0 <= theta*k) by nra. nra.
Qed.
Theorem C57_heston_start x0 mu sigma y0 theta k xi rho u : 0 < k -> xi <> 0 -> -1 <= rho <= 1 ->
  heston_log_chf x0 mu sigma y0 theta k xi rho 0 u = cexp (cj (u * ln x0)).
Proof.
  intros K X RH. rewrite heston_form, hD_0, hL_0 by auto. f_equal. unfold cj. apply C_ext; simpl; ring.
Qed.
Print Assumptions C57_heston_bounded.
Print Assumptions C57_heston_start.

Section Heston.
Variables mu sigma theta k xi rho u : R.
Hypothesis h_k : 0 < k.
Hypothesis h_xi : xi <> 0.
Hypothesis h_rho : -1 <= rho <= 1.
Notation args := (heston_args mu sigma theta k xi).
Notation D := (hD sigma k xi rho u).
Notation D' := (hD' sigma k xi rho u).
Notation L := (hL sigma k xi rho u).
Definition hc_exp (t x y : R) : C := (cj u * (x + mu*t)%R + (theta*k)%R * L t + y * D t)%C.
Definition hc_f (t x y : R) : C := heston_log_chf (exp x) mu sigma y theta k xi rho t u.
Definition hc_t (t x y : R) : C := ((cj u * mu + (theta*k)%R * D t + y * D' t) * hc_f t x y)%C.
Lemma hc_form t x y : hc_f t x y = cexp (hc_exp t x y).
Proof. unfold hc_f, hc_exp. rewrite heston_form, ln_exp. reflexivity. Qed.
Lemma cder_lin (a c : C) x : cder (fun z => a + RtoC z * c)%C x c.
Proof. eapply cder_eq; [apply cder_plus; [apply cder_const|apply cder_mult; [apply cder_id|apply cder_const]]|]. cbv beta. ring. Qed.
Lemma hc_dt t x y : 0 <= t -> cder (fun s => hc_f s x y) t (hc_t t x y).
Proof.
  intro T. apply cder_ext with (fun s => cexp (hc_exp s x y)); [intro s; symmetry; apply hc_form|].
  unfold hc_t. rewrite hc_form. apply (cder_exp (fun s => hc_exp s x y)). unfold hc_exp.
  apply cder_plus; [apply cder_plus|].
  - apply cder_ext with (fun s => cj u * x + RtoC s * (cj u * mu))%C; [|apply cder_lin]. intro s. rewrite RtoC_plus, RtoC_mult. ring.
  - apply cder_scal. apply hL_der; auto.
  - apply cder_scal. apply hD_der; auto.
Qed.
Lemma hc_dx t x y : cder (fun z => hc_f t z y) x (cj u * hc_f t x y)%C.
Proof.
  apply cder_ext with (fun z => cexp (hc_exp t z y)); [intro s; symmetry; apply hc_form|]. rewrite hc_form. apply (cder_exp (fun z => hc_exp t z y)). unfold hc_exp.
  apply cder_ext with (fun s => (cj u * (mu*t)%R + (theta*k)%R * L t + y * D t) + RtoC s * cj u)%C; [|apply cder_lin]. intro s. rewrite RtoC_plus. ring.
Qed.
Lemma hc_dy t x y : cder (fun z => hc_f t x z) y (D t * hc_f t x y)%C.
Proof.
  apply cder_ext with (fun z => cexp (hc_exp t x z)); [intro s; symmetry; apply hc_form|]. rewrite hc_form. apply (cder_exp (fun z => hc_exp t x z)). apply cder_lin.
Qed.
Lemma half (x : R) : RtoC (x/2) = (RtoC x * / 2)%C.
Proof. unfold Rdiv. rewrite RtoC_mult, RtoC_inv by lra. reflexivity. Qed.
Lemma hc_eq t x y : 0 <= y -> hc_t t x y =
  ((mu - sigma*sigma*Rmax y 0/2)%R * (cj u * hc_f t x y) + (k*(theta - Rmax y 0))%R * (D t * hc_f t x y) +
   ((sigma*sqrt (Rmax y 0)) ^2/2)%R * (cj u * (cj u * hc_f t x y)) + (rho*(sigma*sqrt (Rmax y 0))*(xi*sqrt (Rmax y 0)))%R * (D t * (cj u * hc_f t x y)) +
   ((xi*sqrt (Rmax y 0)) ^2/2)%R * (D t * (D t * hc_f t x y)))%C.
Proof.
  intro Y. rewrite Rmax_left by lra. unfold hc_t, hD'. generalize (D t) (hc_f t x y). intros Dt f.
  replace ((sigma*sqrt y)^2) with (sigma*sigma*(sqrt y*sqrt y)) by ring. replace ((xi*sqrt y)^2) with (xi*xi*(sqrt y*sqrt y)) by ring.
  replace (rho*(sigma*sqrt y)*(xi*sqrt y)) with (rho*sigma*xi*(sqrt y*sqrt y)) by ring. rewrite (sqrt_sqrt y Y).
  unfold h_be, h_v, h_b, cj. destruct Dt as [d1 d2], f as [f1 f2]. apply C_ext; simpl; field.
Qed.
(** the characteristic function, as a function of time and of the starting point, satisfies the backward equation with the
    coefficients of full_heston_process *)
Theorem C63_backward a1 b1 a2 b2 t x y :
  coef2 heston_sde args 0 "dt" a1 -> coef2 heston_sde args 0 "dw" b1 ->
  coef2 heston_sde args 1 "dt" a2 -> coef2 heston_sde args 1 "dw" b2 -> 0 <= t -> 0 <= y ->
  backward2 a1 b1 a2 b2 rho (fun t x y => heston_log_chf (exp x) mu sigma y theta k xi rho t u) t x y.
Proof.
  intros C1 C2 C3 C4 T Y.
  pose proof (coef2_fun _ _ _ _ _ _ C1 (heston_dt1 mu sigma theta k xi) (x, y)) as H1.
  pose proof (coef2_fun _ _ _ _ _ _ C2 (heston_dw1 mu sigma theta k xi) (x, y)) as H2.
  pose proof (coef2_fun _ _ _ _ _ _ C3 (heston_dt2 mu sigma theta k xi) (x, y)) as H3.
  pose proof (coef2_fun _ _ _ _ _ _ C4 (heston_dw2 mu sigma theta k xi) (x, y)) as H4.
  cbn [snd] in *. fold hc_f.
  exists (hc_t t x y), (cj u * (cj u * hc_f t x y))%C, (D t * (cj u * hc_f t x y))%C, (D t * (D t * hc_f t x y))%C,
    (fun x y => cj u * hc_f t x y)%C, (fun x y => D t * hc_f t x y)%C.
  split; [apply hc_dt; auto|]. split; [intros; apply hc_dx|]. split; [intros; apply hc_dy|].
  split; [apply cder_scal; apply hc_dx|]. split; [|split].
  - eapply cder_eq; [apply cder_scal; apply hc_dy|]. ring.
  - apply cder_scal. apply hc_dy.
  - rewrite H1, H2, H3, H4. apply hc_eq. auto.
Qed.

(** *** the law of the solution *)
(* the part that depends on time, and the one that depends on x *)
Definition hc_T (y t : R) : C := cexp (cj u * (mu*t)%R + (theta*k)%R * L t + y * D t)%C.
Lemma hc_split t x y : hc_f t x y = (cexp (cj (u*x)) * hc_T y t)%C.
Proof.
  rewrite hc_form. unfold hc_T, hc_exp. rewrite <- cexp_add. f_equal. rewrite RtoC_plus.
  replace (cj (u*x)) with (cj u * x)%C by (unfold cj; apply C_ext; simpl; ring). ring.
Qed.
Lemma cont_T y t : 0 <= t -> continuity_pt (fun t => fst (hc_T y t)) t /\ continuity_pt (fun t => snd (hc_T y t)) t.
Proof.
  intro T. assert (E : exists l, cder (hc_T y) t l).
  { eexists. unfold hc_T. apply cder_exp. apply cder_plus; [apply cder_plus|].
    - apply cder_ext with (fun s => 0 + RtoC s * (cj u * mu))%C; [|apply cder_lin]. intro s. rewrite RtoC_mult. ring.
    - apply cder_scal. apply hL_der; auto.
    - apply cder_scal. apply hD_der; auto. }
  destruct E as (l & E). apply cder_cont in E. split; apply continuity_pt_filterlim; apply E.
Qed.
Definition hc_R (y t : R) : C := ((cj u * mu + (theta*k)%R * D t + y * D' t) * hc_T y t)%C.
Lemma hc_t_split t x y : hc_t t x y = (cexp (cj (u*x)) * hc_R y t)%C.
Proof. unfold hc_t, hc_R. rewrite hc_split. ring. Qed.
Lemma cont_mult (f g : R -> C) t : continuity_pt (fun t => fst (f t)) t /\ continuity_pt (fun t => snd (f t)) t ->
  continuity_pt (fun t => fst (g t)) t /\ continuity_pt (fun t => snd (g t)) t ->
  continuity_pt (fun t => fst (f t * g t)%C) t /\ continuity_pt (fun t => snd (f t * g t)%C) t.
Proof.
  intros [F1 F2] [G1 G2]. unfold Cmult. cbn [fst snd].
  split; [apply continuity_pt_minus|apply continuity_pt_plus]; apply continuity_pt_mult; auto.
Qed.
Lemma cont_plus (f g : R -> C) t : continuity_pt (fun t => fst (f t)) t /\ continuity_pt (fun t => snd (f t)) t ->
  continuity_pt (fun t => fst (g t)) t /\ continuity_pt (fun t => snd (g t)) t ->
  continuity_pt (fun t => fst (f t + g t)%C) t /\ continuity_pt (fun t => snd (f t + g t)%C) t.
Proof. intros [F1 F2] [G1 G2]. unfold Cplus. cbn [fst snd]. split; apply continuity_pt_plus; auto. Qed.
Lemma cont_const (c : C) t : continuity_pt (fun t => fst c) t /\ continuity_pt (fun t => snd c) t.
Proof. split; apply continuity_pt_const; intros x y; reflexivity. Qed.
Lemma cont_D t : 0 <= t -> continuity_pt (fun t => fst (D t)) t /\ continuity_pt (fun t => snd (D t)) t.
Proof. intro T. pose proof (cder_cont _ _ _ (hD_der sigma k xi rho u h_k h_xi h_rho t T)) as E. split; apply continuity_pt_filterlim; apply E. Qed.
Lemma cont_D' t : 0 <= t -> continuity_pt (fun t => fst (D' t)) t /\ continuity_pt (fun t => snd (D' t)) t.
Proof.
  intro T. pose proof (cont_D t T) as E. unfold hD', Cminus.
  apply cont_plus; [|apply (cont_const (- ((/ 2)%R * ((sigma*sigma)%R * h_v u)))%C)].
  apply cont_plus; [apply cont_mult; [apply cont_const|apply cont_mult; auto]|].
  destruct (cont_mult (fun _ => h_be sigma k xi rho u) D t (cont_const _ t) E) as [A B]. unfold Copp. cbn [fst snd].
  split; apply continuity_pt_opp; auto.
Qed.
Lemma cont_R y t : 0 <= t -> continuity_pt (fun t => fst (hc_R y t)) t /\ continuity_pt (fun t => snd (hc_R y t)) t.
Proof.
  intro T. unfold hc_R. apply cont_mult; [|apply cont_T; auto].
  apply cont_plus; [apply cont_plus; [apply cont_const|apply cont_mult; [apply cont_const|apply cont_D; auto]]|apply cont_mult; [apply cont_const|apply cont_D'; auto]].
Qed.
Lemma cont_2d (K : R -> C) T s x : continuity_pt (fun t => fst (K t)) (T - s) -> continuity_pt (fun t => snd (K t)) (T - s) ->
  continuity_2d_pt (fun s x => fst (cexp (cj (u*x)) * K (T - s)%R)%C) s x /\ continuity_2d_pt (fun s x => snd (cexp (cj (u*x)) * K (T - s)%R)%C) s x.
Proof.
  intros C1 C2.
  assert (TS : continuity_2d_pt (fun s x : R => T - s) s x) by (apply continuity_2d_pt_minus; [apply continuity_2d_pt_const|apply continuity_2d_pt_id1]).
  assert (UX : continuity_2d_pt (fun s x : R => u*x) s x) by (apply continuity_2d_pt_mult; [apply continuity_2d_pt_const|apply continuity_2d_pt_id2]).
  assert (K1 : continuity_2d_pt (fun s x : R => fst (K (T - s))) s x) by (apply (continuity_1d_2d_pt_comp (fun t => fst (K t)) (fun s x => T - s)); auto).
  assert (K2 : continuity_2d_pt (fun s x : R => snd (K (T - s))) s x) by (apply (continuity_1d_2d_pt_comp (fun t => snd (K t)) (fun s x => T - s)); auto).
  assert (CX : continuity_2d_pt (fun s x : R => cos (u*x)) s x) by (apply (continuity_1d_2d_pt_comp cos (fun s x => u*x)); auto; apply continuity_cos).
  assert (SX : continuity_2d_pt (fun s x : R => sin (u*x)) s x) by (apply (continuity_1d_2d_pt_comp sin (fun s x => u*x)); auto; apply continuity_sin).
  split.
  - apply continuity_2d_pt_ext with (fun s x => cos (u*x) * fst (K (T - s)) - sin (u*x) * snd (K (T - s))).
    + intros s' x'. unfold cexp, cj. simpl. rewrite exp_0. ring.
    + apply continuity_2d_pt_minus; apply continuity_2d_pt_mult; auto.
  - apply continuity_2d_pt_ext with (fun s x => cos (u*x) * snd (K (T - s)) + sin (u*x) * fst (K (T - s))).
    + intros s' x'. unfold cexp, cj. simpl. rewrite exp_0. ring.
    + apply continuity_2d_pt_plus; apply continuity_2d_pt_mult; auto.
Qed.
Lemma hc_back (pr : C -> R) T s x y : pr = fst \/ pr = snd -> s <= T -> is_derive (fun z => pr (hc_f (T - z) x y)) s (- pr (hc_t (T - s) x y)).
Proof.
  intros PR S. destruct (hc_dt (T - s) x y ltac:(lra)) as [D1 D2].
  assert (TS : is_derive (fun z => T - z) s (- 1)) by (auto_derive; auto; ring).
  destruct PR as [-> | ->].
  - eapply deq; [exact (dcomp (fun z => fst (hc_f z x y)) (fun z => T - z) s _ _ TS D1)|ring].
  - eapply deq; [exact (dcomp (fun z => snd (hc_f z x y)) (fun z => T - z) s _ _ TS D2)|ring].
Qed.
Lemma pr_lin (pr : C -> R) : pr = fst \/ pr = snd -> (forall a b, pr (a + b)%C = pr a + pr b) /\ (forall (a : R) b, pr (a * b)%C = a * pr b) /\ (forall z, Rabs (pr z) <= Cmod z).
Proof.
  intros [-> | ->]; (split; [intros; reflexivity|split; [intros; simpl; ring|]]);
    intro z; pose proof (Rmax_Cmod z); pose proof (Rmax_l (Rabs (fst z)) (Rabs (snd z))); pose proof (Rmax_r (Rabs (fst z)) (Rabs (snd z))); lra.
Qed.
Lemma hc_law pr a1 b1 a2 b2 x0 y0 T E : pr = fst \/ pr = snd ->
  coef2 heston_sde args 0 "dt" a1 -> coef2 heston_sde args 0 "dw" b1 ->
  coef2 heston_sde args 1 "dt" a2 -> coef2 heston_sde args 1 "dw" b2 -> 0 < x0 -> 0 <= theta -> 0 <= T ->
  law2 y_nonneg a1 b1 a2 b2 rho (ln x0, y0) T E ->
  E (fun p => pr (cexp (cj (u * fst p)))) = pr (heston_log_chf x0 mu sigma y0 theta k xi rho T u).
Proof.
  intros PR C1 C2 C3 C4 X0 TH HT [[_ [_ EX]] LW]. destruct (pr_lin pr PR) as (PA & PS & PB).
  pose proof (LW (fun s p => pr (hc_f (T - s) (fst p) (snd p))) 1) as Q. cbn [fst snd] in Q.
  assert (S0 : hc_f (T - 0) (ln x0) y0 = heston_log_chf x0 mu sigma y0 theta k xi rho T u) by (unfold hc_f; rewrite exp_ln, Rminus_0_r by auto; reflexivity).
  rewrite S0 in Q. rewrite <- Q.
  - apply EX. intros [x y] Y. cbn [fst snd]. rewrite Rminus_diag_eq by reflexivity. unfold hc_f. rewrite C57_heston_start, ln_exp by auto. reflexivity.
  - intros s [x y] S Y. cbn [fst snd]. eapply Rle_trans; [apply PB|]. apply C57_heston_bounded; auto; unfold y_nonneg in Y; simpl in Y; lra.
  - exists (fun s p => - pr (hc_t (T - s) (fst p) (snd p))), (fun s p => pr (cj u * hc_f (T - s) (fst p) (snd p))%C),
      (fun s p => pr (D (T - s) * hc_f (T - s) (fst p) (snd p))%C), (fun s p => pr (cj u * (cj u * hc_f (T - s) (fst p) (snd p)))%C),
      (fun s p => pr (D (T - s) * (cj u * hc_f (T - s) (fst p) (snd p)))%C), (fun s p => pr (D (T - s) * (D (T - s) * hc_f (T - s) (fst p) (snd p)))%C).
    intros s x y S Y. cbn [fst snd]. unfold y_nonneg in Y. simpl in Y.
    assert (CD : forall f l z, cder f z l -> is_derive (fun w => pr (f w)) z (pr l)) by (intros f l z [U1 U2]; destruct PR as [-> | ->]; auto).
    assert (T2 : 0 <= T - s) by lra.
    split; [apply hc_back; auto; lra|]. split; [apply (CD (fun z => hc_f (T - s) z y)); apply hc_dx|]. split; [apply (CD (fun z => hc_f (T - s) x z)); apply hc_dy|].
    split; [apply (CD (fun z => cj u * hc_f (T - s) z y)%C); apply cder_scal; apply hc_dx|].
    split; [apply (CD (fun z => cj u * hc_f (T - s) x z)%C); eapply cder_eq; [apply cder_scal; apply hc_dy|ring]|].
    split; [apply (CD (fun z => D (T - s) * hc_f (T - s) x z)%C); apply cder_scal; apply hc_dy|].
    split; [|split].
    + destruct (cont_T y (T - s) T2) as [U1 U2]. destruct (cont_2d (hc_T y) T s x U1 U2) as [V1 V2].
      destruct PR as [-> | ->]; [apply (continuity_2d_pt_ext _ _ s x) with (2 := V1)|apply (continuity_2d_pt_ext _ _ s x) with (2 := V2)]; intros s' x'; cbv beta; rewrite hc_split; reflexivity.
    + destruct (cont_R y (T - s) T2) as [U1 U2]. destruct (cont_2d (hc_R y) T s x U1 U2) as [V1 V2].
      destruct PR as [-> | ->]; apply continuity_2d_pt_opp; [apply (continuity_2d_pt_ext _ _ s x) with (2 := V1)|apply (continuity_2d_pt_ext _ _ s x) with (2 := V2)]; intros s' x'; cbv beta; rewrite hc_t_split; reflexivity.
    + pose proof (coef2_fun _ _ _ _ _ _ C1 (heston_dt1 mu sigma theta k xi) (x, y)) as H1.
      pose proof (coef2_fun _ _ _ _ _ _ C2 (heston_dw1 mu sigma theta k xi) (x, y)) as H2.
      pose proof (coef2_fun _ _ _ _ _ _ C3 (heston_dt2 mu sigma theta k xi) (x, y)) as H3.
      pose proof (coef2_fun _ _ _ _ _ _ C4 (heston_dw2 mu sigma theta k xi) (x, y)) as H4.
      cbn [snd] in *. unfold gen2. rewrite H1, H2, H3, H4. cbn [fst snd].
      rewrite (hc_eq (T - s) x y Y). rewrite !PA, !PS. ring.
Qed.
(** for any law of the solution, the expected values of cos(u log x) and sin(u log x) are its real and imaginary part *)
Theorem C63_law a1 b1 a2 b2 x0 y0 T E :
  coef2 heston_sde args 0 "dt" a1 -> coef2 heston_sde args 0 "dw" b1 ->
  coef2 heston_sde args 1 "dt" a2 -> coef2 heston_sde args 1 "dw" b2 -> 0 < x0 -> 0 <= theta -> 0 <= T ->
  law2 y_nonneg a1 b1 a2 b2 rho (ln x0, y0) T E ->
  heston_log_chf x0 mu sigma y0 theta k xi rho T u = (E (fun p => cos (u * fst p)), E (fun p => sin (u * fst p))).
Proof.
  intros C1 C2 C3 C4 X0 TH HT LW.
  assert (EX : forall f g, (forall p, y_nonneg p -> f p = g p) -> E f = E g) by apply LW.
  apply C_ext; cbn [fst snd].
  - rewrite <- (hc_law fst a1 b1 a2 b2 x0 y0 T E) by auto. apply EX. intros p _. unfold cexp, cj. simpl. rewrite exp_0. ring.
  - rewrite <- (hc_law snd a1 b1 a2 b2 x0 y0 T E) by auto. apply EX. intros p _. unfold cexp, cj. simpl. rewrite exp_0. ring.
Qed.
End Heston.
Print Assumptions C63_backward.
Print Assumptions C63_law.

(** *** laws exist: with y0 = theta = 0 the variance stays 0, and the logarithm of x moves at speed mu *)
Theorem C63_exists mu sigma k xi rho x0 T a1 b1 a2 b2 : let args := heston_args mu sigma 0 k xi in 0 <= T ->
  coef2 heston_sde args 0 "dt" a1 -> coef2 heston_sde args 0 "dw" b1 ->
  coef2 heston_sde args 1 "dt" a2 -> coef2 heston_sde args 1 "dw" b2 ->
  law2 y_nonneg a1 b1 a2 b2 rho (ln x0, 0) T (fun f => f (ln x0 + mu*T, 0)).
Proof.
  intros args HT C1 C2 C3 C4. split.
  { split; [|split]; intros; auto. apply H. unfold y_nonneg. simpl. lra. }
  intros h B _ (hs & hx & hy & hxx & hxy & hyy & H).
  assert (H' : forall s x, 0 <= s <= T -> is_derive (fun z => h z (x, 0)) s (hs s (x, 0)) /\ is_derive (fun z => h s (z, 0)) x (hx s (x, 0)) /\
     continuity_2d_pt (fun s x => h s (x, 0)) s x /\ continuity_2d_pt (fun s x => hs s (x, 0)) s x /\ hs s (x, 0) + mu * hx s (x, 0) = 0).
  { intros s x S. destruct (H s x 0 S) as (D1 & D2 & _ & _ & _ & _ & K1 & K2 & Q); [unfold y_nonneg; simpl; lra|].
    repeat (split; auto). unfold gen2 in Q.
    rewrite (coef2_fun _ _ _ _ _ _ C1 (heston_dt1 mu sigma 0 k xi) (x, 0)), (coef2_fun _ _ _ _ _ _ C2 (heston_dw1 mu sigma 0 k xi) (x, 0)),
      (coef2_fun _ _ _ _ _ _ C3 (heston_dt2 mu sigma 0 k xi) (x, 0)), (coef2_fun _ _ _ _ _ _ C4 (heston_dw2 mu sigma 0 k xi) (x, 0)) in Q.
    cbn [snd] in Q. rewrite Rmax_left, sqrt_0 in Q by lra. lra. }
  clear H. set (m := fun s => h s (ln x0 + mu*s, 0)).
  destruct (MVT_gen m 0 T (fun _ => 0)) as (c & _ & E).
  - intros s S. rewrite Rmin_left, Rmax_right in S by auto.
    destruct (H' s (ln x0 + mu*s)) as (D1 & D2 & _ & K2 & Q); [lra|].
    assert (LOC : locally_2d (fun u v => is_derive (fun z => h z (v, 0)) u (hs u (v, 0))) s (ln x0 + mu*s)).
    { exists (mkposreal (Rmin s (T - s)) ltac:(apply Rmin_glb_lt; lra)). intros a x A _. simpl in A.
      apply H'. apply Rabs_def2 in A. pose proof (Rmin_l s (T - s)). pose proof (Rmin_r s (T - s)). lra. }
    assert (DF : differentiable_pt_lim (fun s x => h s (x, 0)) s (ln x0 + mu*s) (hs s (ln x0 + mu*s, 0)) (hx s (ln x0 + mu*s, 0))).
    { apply filterdiff_differentiable_pt_lim. apply (is_derive_filterdiff (fun s x => h s (x, 0)) s (ln x0 + mu*s) (fun s x => hs s (x, 0))).
      - apply locally_2d_locally in LOC. exact LOC.
      - exact D2.
      - apply continuity_2d_pt_filterlim in K2. exact K2. }
    apply (deq m s (hs s (ln x0 + mu*s, 0) * 1 + hx s (ln x0 + mu*s, 0) * mu)); [|lra]. apply is_derive_Reals.
    apply (derivable_pt_lim_comp_2d (fun s x => h s (x, 0)) (fun s => s) (fun s => ln x0 + mu*s)); auto.
    + apply derivable_pt_lim_id.
    + apply is_derive_Reals. auto_derive; auto. ring.
  - intros s S. rewrite Rmin_left, Rmax_right in S by auto. destruct (H' s (ln x0 + mu*s) S) as (_ & _ & K1 & _).
    intros eps EP. destruct (K1 (mkposreal eps EP)) as [del K].
    assert (M : 0 < 1 + Rabs mu) by (pose proof (Rabs_pos mu); lra).
    exists (del / (1 + Rabs mu)). split; [apply Rdiv_lt_0_compat; [apply cond_pos|auto]|].
    intros z [_ Z]. simpl in Z. unfold R_dist in *. simpl. unfold R_dist. unfold m. apply K.
    + eapply Rlt_le_trans; [exact Z|]. apply (Rmult_le_reg_r (1 + Rabs mu)); auto. unfold Rdiv. rewrite Rmult_assoc, Rinv_l by lra. pose proof (cond_pos del). pose proof (Rabs_pos mu). nra.
    + replace (ln x0 + mu*z - (ln x0 + mu*s)) with (mu*(z - s)) by ring. rewrite Rabs_mult.
      apply (Rmult_lt_compat_r (1 + Rabs mu)) in Z; auto. unfold Rdiv in Z. rewrite Rmult_assoc, Rinv_l in Z by lra.
      pose proof (Rabs_pos (z - s)). lra.
  - unfold m in E. rewrite Rmult_0_l in E. replace (ln x0 + mu*0) with (ln x0) in E by ring. lra.
Qed.
Print Assumptions C63_exists.
(** their characteristic function *)
Example C63_ex u : heston_log_chf 1 (1/2) 2 0 0 1 3 (-1) 4 u = (cos (u*2), sin (u*2)).
Proof.
  rewrite (C63_law (1/2) 2 0 1 3 (-1) u ltac:(lra) ltac:(lra) ltac:(lra) _ _ _ _ 1 0 4 (fun f => f (ln 1 + 1/2*4, 0)) (heston_dt1 _ _ _ _ _) (heston_dw1 _ _ _ _ _) (heston_dt2 _ _ _ _ _) (heston_dw2 _ _ _ _ _)); try lra.
  - rewrite ln_1. cbn [fst]. replace (0 + 1/2*4) with 2 by field. reflexivity.
  - apply (C63_exists (1/2) 2 1 3 (-1) 1 4); [lra|apply heston_dt1|apply heston_dw1|apply heston_dt2|apply heston_dw2].
Qed.
