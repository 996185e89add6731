(** Coefficients of the preset equations, and laws with given moments. *)
From Coq Require Import String List Arith Bool Reals Lra Lia.
From Coquelicot Require Import Coquelicot.
From Verif Require Import Base BaseNum BaseArr M_sde M_presets M_analytical S_analytical L_ode L_moments.
Import ListNotations.
Local Open Scope R_scope.

(** the coefficients are those of the model of the methods sde *)
Ltac coef_tac := intros t x; simpl; do 2 eexists; split; [reflexivity|]; split; [reflexivity|]; split; [reflexivity|]; reflexivity.
Ltac coef2_tac := intros t x y; simpl; do 3 eexists; split; [reflexivity|]; split; [reflexivity|]; split; [reflexivity|]; split; [reflexivity|]; reflexivity.

Lemma coef_fun sde args id f g : coef sde args id f -> coef sde args id g -> forall x, f x = g x.
Proof.
  intros H1 H2 x. destruct (H1 0 x) as (d & c & E & L & _ & <-), (H2 0 x) as (d' & c' & E' & L' & _ & <-).
  rewrite E in E'. injection E' as <-. rewrite L in L'. injection L' as <-. reflexivity.
Qed.
Lemma coef2_fun sde args i id f g : coef2 sde args i id f -> coef2 sde args i id g -> forall p, f p = g p.
Proof.
  intros H1 H2 [x y]. destruct (H1 0 x y) as (ds & d & c & E & N & L & _ & <-), (H2 0 x y) as (ds' & d' & c' & E' & N' & L' & _ & <-).
  rewrite E in E'. injection E' as <-. rewrite N in N'. injection N' as <-. rewrite L in L'. injection L' as <-. reflexivity.
Qed.
Section Coefs.
Open Scope string_scope.
Lemma wiener_dt mu sigma : coef wiener_sde (bm_args mu sigma) "dt" (fun _ => mu). Proof. coef_tac. Qed.
Lemma wiener_dw mu sigma : coef wiener_sde (bm_args mu sigma) "dw" (fun _ => sigma). Proof. coef_tac. Qed.
Lemma lognorm_dt mu sigma : coef lognorm_sde (bm_args mu sigma) "dt" (fun _ => mu - sigma*sigma/2). Proof. coef_tac. Qed.
Lemma lognorm_dw mu sigma : coef lognorm_sde (bm_args mu sigma) "dw" (fun _ => sigma). Proof. coef_tac. Qed.
Lemma jumpdiff_dt mu sigma : coef jumpdiff_sde (bm_args mu sigma) "dt" (fun _ => mu - sigma*sigma/2). Proof. coef_tac. Qed.
Lemma jumpdiff_dw mu sigma : coef jumpdiff_sde (bm_args mu sigma) "dw" (fun _ => sigma). Proof. coef_tac. Qed.
Lemma jumpdiff_dj mu sigma : coef jumpdiff_sde (bm_args mu sigma) "dj" (fun _ => 1). Proof. coef_tac. Qed.
Lemma ou_dt theta k sigma : coef ou_sde (ou_args theta k sigma) "dt" (fun x => k * (theta - x)). Proof. coef_tac. Qed.
Lemma ou_dw theta k sigma : coef ou_sde (ou_args theta k sigma) "dw" (fun _ => sigma). Proof. coef_tac. Qed.
Lemma cir_dt theta k xi : coef cir_sde (cir_args theta k xi) "dt" (fun x => k * (theta - Rmax x 0)). Proof. coef_tac. Qed.
Lemma cir_dw theta k xi : coef cir_sde (cir_args theta k xi) "dw" (fun x => xi * sqrt (Rmax x 0)). Proof. coef_tac. Qed.
Variables mu sigma theta k xi : R.
Notation ha := (heston_args mu sigma theta k xi).
Lemma heston_dt1 : coef2 heston_sde ha 0 "dt" (fun p => mu - sigma*sigma*Rmax (snd p) 0/2). Proof. coef2_tac. Qed.
Lemma heston_dw1 : coef2 heston_sde ha 0 "dw" (fun p => sigma * sqrt (Rmax (snd p) 0)). Proof. coef2_tac. Qed.
Lemma heston_dt2 : coef2 heston_sde ha 1 "dt" (fun p => k * (theta - Rmax (snd p) 0)). Proof. coef2_tac. Qed.
Lemma heston_dw2 : coef2 heston_sde ha 1 "dw" (fun p => xi * sqrt (Rmax (snd p) 0)). Proof. coef2_tac. Qed.
End Coefs.

(** *** Laws with given moments: combinations of values at a few points *)
Definition law3 (p1 p2 p3 : R) (m s : R) (f : R -> R) : R :=
  (* weights such that E 1 = 1, E x = m, E x^2 = s at points of value 0, 1, 2 *)
  (1 - 3/2*m + s/2) * f p1 + (2*m - s) * f p2 + (s - m)/2 * f p3.
Lemma law3_expectation (P : R -> Prop) p1 p2 p3 m s : P p1 -> P p2 -> P p3 -> expectation P (law3 p1 p2 p3 m s).
Proof.
  intros H1 H2 H3. unfold law3. split; [|split].
  - intros; ring.
  - intros; field.
  - intros f g H. rewrite !H; auto.
Qed.
Lemma law3_1 m s : law3 0 1 2 m s (fun x => x) = m.
Proof. unfold law3. field. Qed.
Lemma law3_2 m s : law3 0 1 2 m s (fun x => x^2) = s.
Proof. unfold law3. field. Qed.

(** nodes (0,0), (1,0), (2,0), (0,1), (0,2), (1,1) *)
Definition law6 (m1 m2 s1 c s2 : R) (f : R * R -> R) : R :=
  (1 - 3/2*m1 + s1/2 - 3/2*m2 + s2/2 + c) * f (0, 0) + (2*m1 - s1 - c) * f (1, 0) + (s1 - m1)/2 * f (2, 0)
  + (2*m2 - s2 - c) * f (0, 1) + (s2 - m2)/2 * f (0, 2) + c * f (1, 1).
Lemma law6_expectation (P : R * R -> Prop) m1 m2 s1 c s2 : (forall x y, 0 <= y -> P (x, y)) -> expectation P (law6 m1 m2 s1 c s2).
Proof.
  intros H. unfold law6. split; [|split].
  - intros; ring.
  - intros; field.
  - intros f g H'. rewrite !(H' (_, _)) by (apply H; lra). reflexivity.
Qed.
Lemma law6_moments m1 m2 s1 c s2 : let E := law6 m1 m2 s1 c s2 in
  E fst = m1 /\ E snd = m2 /\ E (fun p => fst p ^2) = s1 /\ E (fun p => fst p * snd p) = c /\ E (fun p => snd p ^2) = s2.
Proof. unfold law6. cbv zeta. cbn [fst snd]. repeat split; field. Qed.

Lemma filterlim_ext_pos (f g : R -> R) l : (forall t, 0 < t -> f t = g t) -> filterlim g (at_right 0) (locally l) ->
  filterlim f (at_right 0) (locally l).
Proof.
  intros H. apply filterlim_ext_loc. exists (mkposreal 1 Rlt_0_1). intros s _ Hs. symmetry. apply H. exact Hs.
Qed.

(** *** Closed forms: M, V solve the equations, hence they are the moments; and a law with these moments exists *)
Section Closed.
Variables (P : R -> Prop) (a b : R -> R) (x0 a0 a1 b0 b1 : R) (M V : R -> R).
Hypothesis HA : forall x, P x -> a x = a0 + a1 * x.
Hypothesis HB : forall x, P x -> b x ^2 = b0 + b1 * x.
Hypothesis DM : forall t, is_derive M t (a1 * M t + a0).
Hypothesis DV : forall t, is_derive V t (2 * a1 * V t + (b0 + b1 * M t)).
Hypothesis M0 : M 0 = x0.
Hypothesis V0 : V 0 = 0.
Lemma closed_moments E : diffusion P a b x0 E ->
  forall t, 0 < t -> E t (fun x => x) = M t /\ variance (E t) (fun x => x) = V t.
Proof.
  intros D t Ht. destruct (mean_ode P a b x0 E D a0 a1 HA) as [D1 L1].
  destruct (var_ode P a b x0 E D a0 a1 b0 b1 HA HB) as [D2 L2].
  assert (EM : forall t, 0 < t -> E t (fun x => x) = M t).
  { apply (ode_solution a1 (fun _ => a0) (fun s => E s (fun x => x)) M); auto. rewrite M0. auto. }
  split; auto. apply (ode_solution (2 * a1) (fun t => b0 + b1 * M t) (fun s => variance (E s) (fun x => x)) V); auto.
  - intros s Hs. rewrite <- EM by auto. apply D2; auto.
  - rewrite V0. auto.
Qed.
Lemma closed_exists : P 0 -> P 1 -> P 2 -> exists E, diffusion P a b x0 E.
Proof.
  intros P0 P1 P2. exists (fun t => law3 0 1 2 (M t) (V t + M t ^2)).
  assert (XE : forall t, expectation P (law3 0 1 2 (M t) (V t + M t ^2))) by (intro; apply law3_expectation; auto).
  split; [|split].
  - auto.
  - split.
    + intros t Ht. apply (is_derive_ext M); [intro s; symmetry; apply law3_1|].
      rewrite (E_comb P _ (XE t) _ a0 a1 0 0 (fun x => x) (fun x => x) (fun x => x)).
      * rewrite law3_1. evar_last; [apply DM|]. ring.
      * intros x Px. unfold gen1. rewrite (HA x Px). lra.
    + apply (filterlim_ext_pos _ M); [intros; apply law3_1|]. rewrite <- M0. apply filterlim_at_right.
      apply (ex_derive_continuous M). eexists; apply DM.
  - split.
    + intros t Ht. apply (is_derive_ext (fun t => V t + M t ^2)); [intro s; symmetry; apply law3_2|].
      rewrite (E_comb P _ (XE t) _ b0 (2 * a0 + b1) (2 * a1) 0 (fun x => x) (fun x => x^2) (fun x => x)).
      * rewrite law3_1, law3_2. evar_last.
        { apply (is_derive_plus V (fun t => M t ^2)); [apply DV|]. apply (is_derive_pow M 2). apply DM. }
        unfold plus; simpl. ring.
      * intros x Px. unfold gen1. rewrite (HA x Px), (HB x Px). field.
    + apply (filterlim_ext_pos _ (fun t => V t + M t ^2)); [intros; apply law3_2|].
      replace (x0^2) with (V 0 + M 0 ^2) by (rewrite V0, M0; ring).
      apply (filterlim_at_right (fun t => V t + M t ^2)).
      apply (ex_derive_continuous (fun t => V t + M t ^2)). eexists.
      apply (is_derive_plus V (fun t => M t ^2)); [apply DV|]. apply (is_derive_pow M 2). apply DM.
Qed.
End Closed.

Section Closed2.
Variables (P : R * R -> Prop) (a1 b1 a2 b2 : R * R -> R) (rho : R) (x0 y0 : R).
Variables p0 p1 p2 q0 q2 u0 u2 v0 v2 w0 w2 : R.
Hypothesis H1 : forall p, P p -> a1 p = p0 + p1 * fst p + p2 * snd p.
Hypothesis H2 : forall p, P p -> a2 p = q0 + q2 * snd p.
Hypothesis H3 : forall p, P p -> b1 p ^2 = u0 + u2 * snd p.
Hypothesis H4 : forall p, P p -> b2 p ^2 = v0 + v2 * snd p.
Hypothesis H5 : forall p, P p -> b1 p * b2 p = w0 + w2 * snd p.
Variables MX MY VX VY CV : R -> R.
Hypothesis DMX : forall t, is_derive MX t (p1 * MX t + (p0 + p2 * MY t)).
Hypothesis DMY : forall t, is_derive MY t (q2 * MY t + q0).
Hypothesis DVX : forall t, is_derive VX t (2 * p1 * VX t + (2 * p2 * CV t + (u0 + u2 * MY t))).
Hypothesis DVY : forall t, is_derive VY t (2 * q2 * VY t + (v0 + v2 * MY t)).
Hypothesis DCV : forall t, is_derive CV t ((p1 + q2) * CV t + (p2 * VY t + rho * (w0 + w2 * MY t))).
Hypothesis I1 : MX 0 = x0.
Hypothesis I2 : MY 0 = y0.
Hypothesis I3 : VX 0 = 0.
Hypothesis I4 : VY 0 = 0.
Hypothesis I5 : CV 0 = 0.
Lemma closed_moments2 E : diffusion2 P a1 b1 a2 b2 rho (x0, y0) E -> forall t, 0 < t ->
  E t fst = MX t /\ E t snd = MY t /\ variance (E t) fst = VX t /\ variance (E t) snd = VY t /\
  covariance (E t) fst snd = CV t.
Proof.
  intros D t Ht.
  destruct (my_ode P a1 b1 a2 b2 rho x0 y0 E D q0 q2 H2) as [D2 L2].
  assert (EY : forall t, 0 < t -> E t snd = MY t).
  { apply (ode_solution q2 (fun _ => q0) (fun s => E s snd) MY); auto. rewrite I2; auto. }
  destruct (mx_ode P a1 b1 a2 b2 rho x0 y0 E D p0 p1 p2 H1) as [D1 L1].
  assert (EX : forall t, 0 < t -> E t fst = MX t).
  { apply (ode_solution p1 (fun t => p0 + p2 * MY t) (fun s => E s fst) MX); auto; [|rewrite I1; auto].
    intros s Hs. rewrite <- EY by auto. apply D1; auto. }
  destruct (vy_ode P a1 b1 a2 b2 rho x0 y0 E D q0 q2 v0 v2 H2 H4) as [D5 L5].
  assert (EVY : forall t, 0 < t -> variance (E t) snd = VY t).
  { apply (ode_solution (2 * q2) (fun t => v0 + v2 * MY t) (fun s => variance (E s) snd) VY); auto; [|rewrite I4; auto].
    intros s Hs. rewrite <- EY by auto. apply D5; auto. }
  destruct (cxy_ode P a1 b1 a2 b2 rho x0 y0 E D p0 p1 p2 q0 q2 w0 w2 H1 H2 H5) as [D4 L4].
  assert (EC : forall t, 0 < t -> covariance (E t) fst snd = CV t).
  { apply (ode_solution (p1 + q2) (fun t => p2 * VY t + rho * (w0 + w2 * MY t)) (fun s => covariance (E s) fst snd) CV); auto; [|rewrite I5; auto].
    intros s Hs. rewrite <- EY, <- EVY by auto. apply D4; auto. }
  destruct (vx_ode P a1 b1 a2 b2 rho x0 y0 E D p0 p1 p2 u0 u2 H1 H3) as [D3 L3].
  assert (EVX : forall t, 0 < t -> variance (E t) fst = VX t).
  { apply (ode_solution (2 * p1) (fun t => 2 * p2 * CV t + (u0 + u2 * MY t)) (fun s => variance (E s) fst) VX); auto; [|rewrite I3; auto].
    intros s Hs. rewrite <- EY, <- EC by auto. apply D3; auto. }
  auto 10.
Qed.
Lemma closed_exists2 : (forall x y, 0 <= y -> P (x, y)) -> exists E, diffusion2 P a1 b1 a2 b2 rho (x0, y0) E.
Proof.
  intros HP. pose (S1 := fun t => VX t + MX t ^2). pose (S2 := fun t => VY t + MY t ^2). pose (K := fun t => CV t + MX t * MY t).
  pose (E := fun t => law6 (MX t) (MY t) (S1 t) (K t) (S2 t)). exists E.
  assert (XE : forall t, expectation P (E t)) by (intro; apply law6_expectation; auto).
  assert (MM : forall t, E t fst = MX t /\ E t snd = MY t /\ E t (fun p => fst p ^2) = S1 t /\
                         E t (fun p => fst p * snd p) = K t /\ E t (fun p => snd p ^2) = S2 t) by (intro; apply law6_moments).
  assert (G : forall (f Lf : R * R -> R) (F dF : R -> R) start, (forall t, E t f = F t) -> (forall t, is_derive F t (dF t)) ->
     (forall t, E t Lf = dF t) -> F 0 = f start -> evolves E f Lf start).
  { intros f Lf F dF start HF HD HL H0. split.
    - intros t Ht. apply (is_derive_ext F); [intro s; symmetry; apply HF|]. rewrite HL. apply HD.
    - apply (filterlim_ext_pos _ F); [intros; apply HF|]. rewrite <- H0. apply filterlim_at_right.
      apply (ex_derive_continuous F). eexists; apply HD. }
  assert (LN : forall t g c0 c1 c2 c3 c4 c5, (forall p, P p -> g p = c0 + c1 * fst p + c2 * snd p + c3 * fst p ^2 + c4 * (fst p * snd p) + c5 * snd p ^2) ->
     E t g = c0 + c1 * MX t + c2 * MY t + c3 * S1 t + c4 * K t + c5 * S2 t).
  { intros t g c0 c1 c2 c3 c4 c5 Hg. destruct (MM t) as (A1 & A2 & A3 & A4 & A5).
    rewrite (E_comb P (E t) (XE t) g c0 c1 c2 1 fst snd (fun p => c3 * fst p ^2 + (c4 * (fst p * snd p) + c5 * snd p ^2))).
    2:{ intros p Pp. rewrite (Hg p Pp). ring. }
    rewrite (E_lin P (E t) (XE t) c3 (fun p => fst p ^2)), (E_lin P (E t) (XE t) c4 (fun p => fst p * snd p)),
      (E_scal P (E t) (XE t) c5 (fun p => snd p ^2)). rewrite A1, A2, A3, A4, A5. ring. }
  split; [auto|]. split; [|split; [|split; [|split]]].
  - apply (G _ _ MX (fun t => p1 * MX t + (p0 + p2 * MY t))); auto; [intro; apply MM|].
    intro t. rewrite (LN t _ p0 p1 p2 0 0 0); [ring|]. intros p Pp. unfold gen2. rewrite (H1 p Pp). lra.
  - apply (G _ _ MY (fun t => q2 * MY t + q0)); auto; [intro; apply MM|].
    intro t. rewrite (LN t _ q0 0 q2 0 0 0); [ring|]. intros p Pp. unfold gen2. rewrite (H2 p Pp). lra.
  - apply (G _ _ S1 (fun t => (2 * p1 * VX t + (2 * p2 * CV t + (u0 + u2 * MY t))) + 2 * MX t * (p1 * MX t + (p0 + p2 * MY t)))); [intro; apply MM| | |].
    + intro t. unfold S1. evar_last; [apply (is_derive_plus VX (fun t => MX t ^2)); [apply DVX|apply (is_derive_pow MX 2); apply DMX]|].
      unfold plus; simpl. ring.
    + intro t. rewrite (LN t _ u0 (2*p0) u2 (2*p1) (2*p2) 0); [unfold S1, S2, K; ring|].
      intros p Pp. unfold gen2. rewrite (H1 p Pp), (H3 p Pp). field.
    + unfold S1. rewrite I3, I1. simpl. ring.
  - apply (G _ _ K (fun t => ((p1 + q2) * CV t + (p2 * VY t + rho * (w0 + w2 * MY t))) +
                            ((p1 * MX t + (p0 + p2 * MY t)) * MY t + MX t * (q2 * MY t + q0)))); [intro; apply MM| | |].
    + intro t. unfold K. evar_last; [apply (is_derive_plus CV (fun t => MX t * MY t)); [apply DCV|apply (is_derive_mult MX MY); [apply DMX|apply DMY|intros; apply Rmult_comm]]|].
      unfold plus, mult; simpl. ring.
    + intro t. rewrite (LN t _ (rho * w0) q0 (p0 + rho * w2) 0 (p1 + q2) p2); [unfold S1, S2, K; ring|].
      intros p Pp. unfold gen2. rewrite (H1 p Pp), (H2 p Pp).
      replace (rho * b1 p * b2 p * 1) with (rho * (b1 p * b2 p)) by ring. rewrite (H5 p Pp). field.
    + unfold K. rewrite I5, I1, I2. simpl. ring.
  - apply (G _ _ S2 (fun t => (2 * q2 * VY t + (v0 + v2 * MY t)) + 2 * MY t * (q2 * MY t + q0))); [intro; apply MM| | |].
    + intro t. unfold S2. evar_last; [apply (is_derive_plus VY (fun t => MY t ^2)); [apply DVY|apply (is_derive_pow MY 2); apply DMY]|].
      unfold plus; simpl. ring.
    + intro t. rewrite (LN t _ v0 0 (v2 + 2 * q0) 0 0 (2 * q2)); [unfold S1, S2, K; ring|].
      intros p Pp. unfold gen2. rewrite (H2 p Pp), (H4 p Pp). field.
    + unfold S2. rewrite I4, I2. simpl. ring.
Qed.
End Closed2.
