(** Lemmas on Gaussian values with time dependent parameters: sources, drifts, distances from the process. *)
From Coq Require Import String List Arith Bool ZArith Reals Lra Lia Sorted.
From Coquelicot Require Import Coquelicot.
From Verif Require Import Base BaseOrd BaseNum BaseArr M_paths S_paths S_run L_ord L_paths8
  M_process M_source S_source M_sde S_sde L_sde L_sde2 L_sde3 M_presets S_presets L_presets M_integrate S_integrate P_source P_source2 P_source4 S_true2 S_euler L_euler L_euler2
  BaseNd BaseIdx S_process L_nd L_pack L_process P_source3 M_rv S_rv M_analytical S_analytical M_anti S_law P_chf L_law L_law2 L_law4 L_law5 S_gval L_gval L_gval2 L_gval3 L_gval4 L_gval5
  S_tval L_tval L_tval2 L_tval3 L_tval4 L_tval5.
Import ListNotations.
Local Open Scope R_scope.

(** *** sources *)
Lemma noise_gauss {G} (L : nat -> (G -> R) -> R) normal mvnormal anti corr rho c n paths vshape s :
  noise_source L normal mvnormal anti corr rho c n paths vshape s ->
  gauss_source L (vshape ++ [paths]) (fun t dt => path_corr anti n (c (t + dt/2))) (at_step s).
Proof.
  intros (HL & N_ok & M_ok & N_law & M_law & HC & -> & HS). destruct anti; cbn [given_dw] in HS; unfold source_dw, source_setup in HS.
  - exact (odd_gauss L HL normal mvnormal N_ok M_ok vshape n c N_law M_law corr rho HC s HS).
  - exact (wiener_gauss L HL normal mvnormal N_ok M_ok vshape n c N_law M_law corr rho HC s HS).
Qed.

(** *** drifts *)
Lemma var_eval args k a t : var_arg args k a -> arg k (map (fun '(k, z) => (k, peval t z)) args) = Ok (a t).
Proof. intros (p & H & E). rewrite (arg_eval _ _ _ _ H), E. reflexivity. Qed.
Section Drifts.
Variables (w : list nat) (args : dict (M_sde.param R R)).
Lemma wiener_drift_at mu sigma : var_arg args "mu" mu -> var_arg args "sigma" sigma ->
  (forall t, broadcasts (shp (mu t)) w) -> (forall t, broadcasts (shp (sigma t)) w) ->
  drift_noise_at w wiener_sde args (fun t => bget (mu t)) (fun _ _ => 0) sigma.
Proof.
  intros CM CS BM BS t. split; auto. intro x. exists (mu t). split; [|split; auto].
  - unfold wiener_sde. rewrite (var_eval _ _ _ t CM), (var_eval _ _ _ t CS). reflexivity.
  - intros ix _. ring.
Qed.
Lemma lognorm_drift_at mu sigma : var_arg args "mu" mu -> var_arg args "sigma" sigma ->
  (forall t, broadcasts (shp (mu t)) w) -> (forall t, broadcasts (shp (sigma t)) w) ->
  drift_noise_at w lognorm_sde args (fun t ix => bget (mu t) ix - bget (sigma t) ix * bget (sigma t) ix / 2) (fun _ _ => 0) sigma.
Proof.
  intros CM CS BM BS t. split; auto. intro x. specialize (BM t). specialize (BS t). apply can_broadcasts in BM. apply can_broadcasts in BS.
  assert (D : exists d, log_drift (mu t) (sigma t) = Ok d /\ can (shp d) w = true /\ forall ix, bget d ix = bget (mu t) ix - bget (sigma t) ix * bget (sigma t) ix / 2).
  { unfold log_drift.
    destruct (aop_ok nmul (sigma t) (sigma t) w BS BS) as (ss & E1 & C3). rewrite E1. cbn [rbind].
    destruct (aop_ok ndiv ss two w C3 (can_nil _)) as (h & E2 & C4). rewrite E2. cbn [rbind].
    destruct (aop_ok nsub (mu t) h w BM C4) as (d & E3 & C5). rewrite E3. exists d. repeat split; auto.
    intros ix. rewrite (aop_get _ _ _ _ ix E3), (aop_get _ _ _ _ ix E2), (aop_get _ _ _ _ ix E1). reflexivity. }
  destruct D as (d & ED & CD & HD). exists d. split; [|split; [apply can_broadcasts; auto|]].
  - unfold lognorm_sde. rewrite (var_eval _ _ _ t CM), (var_eval _ _ _ t CS). cbn [rbind]. rewrite ED. reflexivity.
  - intros ix _. rewrite HD. ring.
Qed.
Lemma ou_drift_at theta k sigma : var_arg args "theta" theta -> var_arg args "k" k -> var_arg args "sigma" sigma ->
  (forall t, broadcasts (shp (theta t)) w) -> (forall t, broadcasts (shp (k t)) w) -> (forall t, broadcasts (shp (sigma t)) w) ->
  drift_noise_at w ou_sde args (fun t ix => bget (k t) ix * bget (theta t) ix) (fun t => bget (k t)) sigma.
Proof.
  intros CT CK CS BT BK BS t. split; auto. intro x. specialize (BT t). specialize (BK t). apply can_broadcasts in BT. apply can_broadcasts in BK.
  assert (D : exists d, revert (k t) (theta t) (mkArr w x) = Ok d /\ can (shp d) w = true /\ forall ix, inb w ix -> bget d ix = bget (k t) ix * (bget (theta t) ix - x ix)).
  { unfold revert. destruct (aop_ok nsub (theta t) (mkArr w x) w BT (can_refl w)) as (d1 & E1 & C1). rewrite E1. cbn [rbind].
    destruct (aop_ok nmul (k t) d1 w BK C1) as (d & E2 & C2). rewrite E2. exists d. repeat split; auto.
    intros ix HI. rewrite (aop_get _ _ _ _ ix E2), (aop_get _ _ _ _ ix E1), (bget_self (mkArr w x)) by auto. reflexivity. }
  destruct D as (d & ED & CD & HD). exists d. split; [|split; [apply can_broadcasts; auto|]].
  - unfold ou_sde. rewrite (var_eval _ _ _ t CT), (var_eval _ _ _ t CK), (var_eval _ _ _ t CS). cbn [rbind]. rewrite ED. reflexivity.
  - intros ix HI. rewrite HD by auto. ring.
Qed.
End Drifts.

(** *** variations *)
Lemma varies_weak f B B' e e' h lo hi : varies f B e h lo hi -> B <= B' -> e <= e' -> varies f B' e' h lo hi.
Proof. intros [H1 H2] HB He. split; intros; [eapply Rle_trans; eauto|eapply Rle_trans; [apply H2|]; auto]. Qed.
Lemma mult_diff a a' b b' A B ea eb : Rabs a <= A -> Rabs b' <= B -> Rabs (a - a') <= ea -> Rabs (b - b') <= eb -> Rabs (a*b - a'*b') <= A*eb + ea*B.
Proof.
  intros H1 H2 H3 H4. replace (a*b - a'*b') with (a*(b - b') + (a - a')*b') by ring. eapply Rle_trans; [apply Rabs_triang|]. rewrite !Rabs_mult.
  apply Rplus_le_compat; apply Rmult_le_compat; auto; apply Rabs_pos.
Qed.
Lemma varies_mult f g A B ea eb h lo hi : varies f A ea h lo hi -> varies g B eb h lo hi -> varies (fun t => f t * g t) (A*B) (A*eb + ea*B) h lo hi.
Proof.
  intros [F1 F2] [G1 G2]. split.
  - intros t Ht. rewrite Rabs_mult. apply Rmult_le_compat; auto; apply Rabs_pos.
  - intros s t Hs Ht H. apply mult_diff; auto.
Qed.
Lemma varies_minus_half f g A B ea eb h lo hi : varies f A ea h lo hi -> varies g B eb h lo hi -> varies (fun t => f t - g t / 2) (A + B/2) (ea + eb/2) h lo hi.
Proof.
  intros [F1 F2] [G1 G2]. split.
  - intros t Ht. specialize (F1 t Ht). specialize (G1 t Ht). apply Rabs_le_between in F1. apply Rabs_le_between in G1. apply Rabs_le. lra.
  - intros s t Hs Ht H. specialize (F2 s t Hs Ht H). specialize (G2 s t Hs Ht H). apply Rabs_le_between in F2. apply Rabs_le_between in G2. apply Rabs_le. lra.
Qed.
Lemma varies_zero B e h lo hi : 0 <= B -> 0 <= e -> varies (fun _ => 0) B e h lo hi.
Proof. intros HB He. split; intros; rewrite ?Rminus_0_r, Rabs_R0; auto. Qed.

(** *** distances *)
Definition vary_const (B T : R) : R := 5 * exp (B*T) * (1 + B)^3 * (1 + T) * (exp (B*T) * (1 + B)^2 * (1 + T)).
Section Close.
Variables (B T h e : R) (timeline pc : list R) (t0 : R) (gr : list R) (kk : nat -> nat).
Hypothesis HB : 0 <= B.
Hypothesis He : 0 <= e.
Hypothesis HT : forall t, In t timeline -> t <= t0 + T.
Hypothesis Hh : 0 <= h.
Hypothesis FI : fine h timeline pc.
Hypothesis OG : on_times timeline pc t0 gr kk.
Notation t n := (nth n gr 0).
Lemma OT_GP n : (S n < List.length gr)%nat -> 0 < gap gr n <= h.
Proof using FI OG. destruct OG as [(G1 & G2 & _ & _) _]. intro Hn. split; [apply G1; auto|apply G2; auto]. Qed.
Lemma OT_T n : (n < List.length gr)%nat -> t n <= t 0 + T.
Proof using HT OG. intro Hn. destruct OG as [(_ & _ & -> & _) G5]. destruct (G5 n Hn) as (u & Hu & X). specialize (HT u Hu). lra. Qed.
Lemma T_pos i : (i < List.length timeline)%nat -> 0 <= T.
Proof using HT OG. intro Hi. destruct OG as [(_ & _ & _ & G4) _]. destruct (G4 i Hi) as [K1 _]. assert (X := OT_T 0 ltac:(lia)). lra. Qed.
Lemma close_consts : 0 <= T -> let E := exp (B*T) in let q := (B*B*h + e)*T + B*h in let r := E * (1 + B)^2 * (1 + T) in
  1 <= E /\ 0 <= q /\ E*q <= r*(h + e) /\ E*((B*B*h + e)*T) <= r*(h + e) /\ E*(1 + B)^2 <= r /\ 0 <= r.
Proof using HB He Hh.
  intros TP E q r. assert (E1 : 1 <= E) by (unfold E; rewrite <- exp_0; apply exp_mono, Rmult_le_pos; auto).
  assert (Q1 : 1 <= (1 + B)^2) by (cbn [pow]; nra). assert (B2 : B*B <= (1 + B)^2) by (cbn [pow]; nra). assert (B1 : B <= (1 + B)^2) by (cbn [pow]; nra). set (Q := (1 + B)^2) in *.
  assert (BB : 0 <= B*B) by nra. assert (X1 : B*B*h + e <= Q*(h + e)) by nra. assert (X2 : B*h <= Q*(h + e)) by nra. assert (X0 : 0 <= B*B*h) by nra.
  assert (X3 : (B*B*h + e)*T <= Q*(h + e)*T) by (apply Rmult_le_compat_r; auto). assert (X4 : 0 <= (B*B*h + e)*T) by (apply Rmult_le_pos; lra). assert (X5 : 0 <= B*h) by nra.
  assert (X6 : 0 <= Q*(h + e)) by (apply Rmult_le_pos; lra). assert (X7 : q <= Q*(h + e)*(1 + T)) by (unfold q; lra). assert (X8 : (B*B*h + e)*T <= Q*(h + e)*(1 + T)) by lra.
  split; [auto|]. split; [unfold q; lra|]. unfold r. replace (E*Q*(1 + T)*(h + e)) with (E*(Q*(h + e)*(1 + T))) by ring. split; [apply Rmult_le_compat_l; lra|]. split; [apply Rmult_le_compat_l; lra|].
  assert (0 <= E*Q) by nra. split; [|apply Rmult_le_pos; lra]. rewrite <- (Rmult_1_r (E*Q)) at 1. apply Rmult_le_compat_l; lra.
Qed.

Lemma lin_mean_close v0 (al ka : R -> list nat -> R) ix i : (i < List.length timeline)%nat ->
  (forall t, continuous (fun t => ka t ix) t) -> (forall t, continuous (fun t => al t ix) t) ->
  varies (fun t => ka t ix) B e h t0 (t0 + T) -> varies (fun t => al t ix) ((1 + B)^2) (2*(1 + B)*e) h t0 (t0 + T) ->
  Rabs (tmean gr v0 (fun n => al (t n)) (fun n => ka (t n)) ix (kk i) - linear_mean (v0 ix) (fun t => ka t ix) (fun t => al t ix) t0 (nth i timeline 0)) <=
  vary_const B T * (1 + Rabs (v0 ix)) * (h + e).
Proof using HB He HT Hh FI OG.
  intros Hi CK CA VK VA. assert (TP := T_pos i Hi). assert (O := OG). destruct O as [(_ & _ & E0 & G4) _]. destruct (G4 i Hi) as [K1 E1].
  assert (Q1 : 1 <= 1 + B) by lra. rewrite <- E0 in VK, VA.
  assert (M := tmean_close gr h T OT_GP Hh OT_T (v0 ix) (fun t => ka t ix) (fun t => al t ix) B ((1 + B)^2) e (2*(1 + B)*e) (kk i) CK CA VK VA HB ltac:(cbn [pow]; nra) He ltac:(nra) K1).
  rewrite E0, E1 in M.
  assert (ET : forall N, tmean gr (fun _ => v0 ix) (fun n _ => al (t n) ix) (fun n _ => ka (t n) ix) [] N = tmean gr v0 (fun n => al (t n)) (fun n => ka (t n)) ix N).
  { induction N as [|N IH]; [reflexivity|]. cbn [tmean]. rewrite IH. reflexivity. }
  rewrite ET in M. eapply Rle_trans; [exact M|]. clear M.
  destruct (close_consts TP) as (C1 & C2 & C3 & C4 & C5 & C6). unfold vary_const. set (E := exp (B*T)) in *. set (q := (B*B*h + e)*T + B*h) in *. set (r := E*(1 + B)^2*(1 + T)) in *.
  set (X := Rabs (v0 ix)). assert (X0 : 0 <= X) by apply Rabs_pos. set (s := h + e) in *. assert (S0 : 0 <= s) by (unfold s; lra).
  assert (Q2 : 1 <= (1 + B)^2) by (cbn [pow]; nra). set (Q := (1 + B)^2) in *.
  assert (Y1 : E*((B*B*h + e)*T)*X <= r*s*X) by (apply Rmult_le_compat_r; auto).
  assert (Y2 : E*q*Q <= r*s*Q) by (apply Rmult_le_compat_r; lra).
  assert (Y3 : E*(2*(1 + B)*e) <= 2*(r*s)).
  { assert (E*(1 + B) <= r) by (eapply Rle_trans; [|exact C5]; apply Rmult_le_compat_l; [lra|]; unfold Q; cbn [pow]; nra).
    replace (E*(2*(1 + B)*e)) with (2*(E*(1 + B)*e)) by ring. apply Rmult_le_compat_l; [lra|]. apply Rmult_le_compat; try (unfold s; lra). apply Rmult_le_pos; lra. }
  assert (RS : 0 <= r*s) by nra. assert (Y4 : E*q*Q + E*(2*(1 + B)*e) <= 3*(r*s)*Q) by nra.
  assert (Y5 : T*(E*q*Q + E*(2*(1 + B)*e)) <= T*(3*(r*s)*Q)) by (apply Rmult_le_compat_l; auto).
  eapply Rle_trans; [apply Rplus_le_compat; [exact Y1|exact Y5]|].
  assert (Q3 : Q <= (1 + B)^3) by (unfold Q; cbn [pow]; nra). set (P := (1 + B)^3) in *.
  assert (Z1 : 1 <= E*P*(1 + T)). { assert (1 <= E*P) by nra. nra. }
  assert (Z2 : T*Q <= E*P*(1 + T)). { assert (P <= E*P) by nra. assert (T*Q <= (1 + T)*Q) by nra. assert ((1 + T)*Q <= (1 + T)*(E*P)) by (apply Rmult_le_compat_l; lra). lra. }
  set (Z := E*P*(1 + T)) in *. replace (5*E*P*(1 + T)*r*(1 + X)*s) with (5*Z*(r*s)*(1 + X)) by (unfold Z; ring).
  assert (W1 : r*s*X <= Z*(r*s)*X) by (apply Rmult_le_compat_r; auto; nra).
  assert (W2 : T*(3*(r*s)*Q) <= 3*(Z*(r*s))) by (replace (T*(3*(r*s)*Q)) with (3*(T*Q*(r*s))) by ring; apply Rmult_le_compat_l; [lra|]; apply Rmult_le_compat_r; auto).
  assert (0 <= Z*(r*s)) by (apply Rmult_le_pos; lra). nra.
Qed.
Lemma lin_cov_close (ka : R -> list nat -> R) (b : R -> list nat -> R) (cr : R -> list nat -> list nat -> R) ix jx i j :
  (i < List.length timeline)%nat -> (j < List.length timeline)%nat ->
  (forall t, continuous (fun t => ka t ix) t) -> (forall t, continuous (fun t => ka t jx) t) -> (forall t, continuous (fun t => b t ix) t) -> (forall t, continuous (fun t => b t jx) t) ->
  (forall t, continuous (fun t => cr t ix jx) t) ->
  varies (fun t => ka t ix) B e h t0 (t0 + T) -> varies (fun t => ka t jx) B e h t0 (t0 + T) -> varies (fun t => b t ix) B e h t0 (t0 + T) -> varies (fun t => b t jx) B e h t0 (t0 + T) ->
  varies (fun t => cr t ix jx) B e h t0 (t0 + T) ->
  Rabs (tcov gr (fun n => cr (t n + gap gr n / 2)) (fun n => ka (t n)) (fun n => b (t n)) (kk i, ix) (kk j, jx) (List.length gr - 1) -
        linear_cov (fun t => ka t ix) (fun t => ka t jx) (fun t => b t ix * b t jx * cr t ix jx) t0 (nth i timeline 0) (nth j timeline 0)) <= vary_const B T * (h + e).
Proof using HB He HT Hh FI OG.
  intros Hi Hj C1 C2 C3 C4 C5 V1 V2 V3 V4 V5. assert (TP := T_pos i Hi). assert (O := OG). destruct O as [(_ & _ & E0 & G4) _]. destruct (G4 i Hi) as [K1 E1]. destruct (G4 j Hj) as [K2 E2].
  rewrite <- E0 in V1, V2, V3, V4, V5. assert (VP := varies_mult _ _ _ _ _ _ _ _ _ (varies_mult _ _ _ _ _ _ _ _ _ V3 V4) V5). cbv beta in VP.
  assert (Q1 : 1 <= 1 + B) by lra. assert (BB : 0 <= B*B) by nra.
  assert (M := tcov_close gr h T OT_GP Hh OT_T (fun t => ka t ix) (fun t => ka t jx) (fun t => b t ix * b t jx * cr t ix jx)
    (fun n => b (t n) ix * b (t n) jx * cr (t n + gap gr n / 2) ix jx) B ((1 + B)^3) e (3*(1 + B)^2*e) (kk i) (kk j) C1 C2).
  rewrite E0, E1, E2 in M. unfold tcov. cbn [fst snd]. eapply Rle_trans; [apply M; auto|].
  - intro r. apply (continuous_mult (fun t => b t ix * b t jx) (fun t => cr t ix jx)); [apply (continuous_mult (fun t => b t ix) (fun t => b t jx)); auto|auto].
  - rewrite <- E0. auto.
  - rewrite <- E0. auto.
  - cbn [pow]. assert (0 <= (1 + B)*(1 + B)) by nra. nra.
  - cbn [pow]. assert (0 <= (1 + B)*(1 + B)) by nra. nra.
  - rewrite <- E0. intros r Hr. eapply Rle_trans; [apply VP; auto|]. cbn [pow]. assert (B*B <= (1 + B)*(1 + B)) by nra. nra.
  - intros n r Hn Hr. assert (G := OT_GP n Hn).
    destruct (step_in gr h T OT_GP OT_T n r Hn Hr) as (R1 & R2 & R3). destruct (step_in gr h T OT_GP OT_T n (t n + gap gr n / 2) Hn ltac:(unfold gap in *; lra)) as (R4 & _ & _).
    assert (R5 : Rabs (t n + gap gr n / 2 - r) <= h) by (unfold gap in *; apply Rabs_le; lra).
    assert (R6 : nth 0 gr 0 <= t n <= nth 0 gr 0 + T) by (apply (t_in gr h T OT_GP OT_T); lia).
    eapply Rle_trans; [apply (mult_diff _ _ _ _ (B*B) B (B*e + e*B) e)|].
    + rewrite Rabs_mult. apply Rmult_le_compat; try apply Rabs_pos; [apply V3|apply V4]; auto.
    + apply V5; auto.
    + apply mult_diff; [apply V3|apply V4|apply V3|apply V4]; auto.
    + apply V5; auto.
    + cbn [pow]. assert (B*B <= (1 + B)*(1 + B)) by nra. nra.
  - destruct (close_consts TP) as (D1 & D2 & D3 & D4 & D5 & D6). unfold vary_const. set (E := exp (B*T)) in *. set (q := (B*B*h + e)*T + B*h) in *. set (r := E*(1 + B)^2*(1 + T)) in *.
    set (s := h + e) in *. assert (S0 : 0 <= s) by (unfold s; lra).
    assert (Q3 : 1 <= (1 + B)^3) by (cbn [pow]; assert (1 <= (1 + B)*(1 + B)) by nra; nra). set (P := (1 + B)^3) in *.
    assert (RS : 0 <= r*s) by nra.
    assert (Y1 : 2*(E*E)*q*P <= 2*E*(r*s)*P).
    { replace (2*(E*E)*q*P) with (E*q*(2*E*P)) by ring. replace (2*E*(r*s)*P) with (r*s*(2*E*P)) by ring. apply Rmult_le_compat_r; [|auto]. apply Rmult_le_pos; lra. }
    assert (Y2 : E*E*(3*(1 + B)^2*e) <= 3*E*(r*s)).
    { replace (E*E*(3*(1 + B)^2*e)) with (3*E*(E*(1 + B)^2*e)) by ring. apply Rmult_le_compat_l; [lra|]. apply Rmult_le_compat; try (unfold s; lra). apply Rmult_le_pos; [lra|]. cbn [pow]; nra. }
    assert (Y3 : 2*(E*E)*q*P + E*E*(3*(1 + B)^2*e) <= 5*E*P*(r*s)) by (assert (0 <= E*(r*s)) by nra; nra).
    apply Rle_trans with (T*(5*E*P*(r*s))); [apply Rmult_le_compat_l; auto|].
    assert (0 <= 5*E*P*(r*s)) by (apply Rmult_le_pos; nra). apply Rle_trans with ((1 + T)*(5*E*P*(r*s))); [|right; ring]. apply Rmult_le_compat_r; lra.
Qed.
End Close.

(** without mean reversion *)
Lemma decay_zero r t : decay (fun _ => 0) r t = 1.
Proof. unfold decay. rewrite RInt_const. unfold scal. cbn. unfold mult. cbn. rewrite Rmult_0_r, Ropp_0, exp_0. reflexivity. Qed.
Lemma linear_mean_zero x0 al t0 t : linear_mean x0 (fun _ => 0) al t0 t = x0 + RInt al t0 t.
Proof. unfold linear_mean. rewrite decay_zero, Rmult_1_l. f_equal. apply RInt_ext. intros r _. rewrite decay_zero. apply Rmult_1_l. Qed.
Lemma linear_cov_zero f t0 s t : linear_cov (fun _ => 0) (fun _ => 0) f t0 s t = RInt f t0 (Rmin s t).
Proof. unfold linear_cov. apply RInt_ext. intros r _. rewrite !decay_zero. match goal with |- ?a = ?b => change (@eq R a b) end. ring. Qed.

(** *** families of continuous functions *)
Lemma one_varies (f : R -> R) lo hi : lo <= hi -> (forall t, continuous f t) ->
  exists B, 0 <= B /\ forall e, 0 < e -> exists d, 0 < d /\ forall h, h <= d -> varies f B e h lo hi.
Proof.
  intros H C. destruct (continuity_ab_maj (fun t => Rabs (f t)) lo hi H) as (M & HM & _).
  { intros t _. apply continuity_pt_filterlim. apply (continuous_comp f Rabs); [apply C|]. apply continuous_Rabs. }
  exists (Rabs (f M)). split; [apply Rabs_pos|]. intros e He. destruct (unifcont_1d f lo hi (fun x _ => C x) (mkposreal e He)) as [d Hd].
  exists (d/2). assert (X := cond_pos d). split; [lra|]. intros h Hh. split; [intros t Ht; apply HM; auto|].
  intros s t Hs Ht Hst. assert (Y := Hd t s Ht Hs). unfold ball in Y. cbn in Y. unfold AbsRing_ball, abs, minus, plus, opp in Y. cbn in Y.
  change (Rabs (f s + - f t) < e) with (Rabs (f s - f t) < e) in Y. apply Rnot_lt_le. intro Z. apply Y; [change (s + - t) with (s - t); lra|lra].
Qed.
Lemma all_vary (l : list (R -> R)) lo hi : lo <= hi -> (forall f, In f l -> forall t, continuous f t) ->
  exists B, 0 <= B /\ forall e, 0 < e -> exists d, 0 < d /\ forall f h, In f l -> h <= d -> varies f B e h lo hi.
Proof.
  intro H. induction l as [|f l IH]; intro C.
  - exists 0. split; [lra|]. intros e _. exists 1. split; [lra|]. intros f h [].
  - destruct IH as (B & HB & IH); [intros g Hg; apply C; right; auto|]. destruct (one_varies f lo hi H (C f (or_introl eq_refl))) as (B' & HB' & IF).
    exists (Rmax B B'). split; [eapply Rle_trans; [exact HB|apply Rmax_l]|]. intros e He. destruct (IH e He) as (d & Hd & Q). destruct (IF e He) as (d' & Hd' & Q').
    exists (Rmin d d'). split; [apply Rmin_glb_lt; auto|]. intros g h [<-|Hg] Hh.
    + eapply varies_weak; [apply Q'; eapply Rle_trans; [exact Hh|apply Rmin_r]|apply Rmax_r|lra].
    + eapply varies_weak; [apply Q; [auto|eapply Rle_trans; [exact Hh|apply Rmin_l]]|apply Rmax_l|lra].
Qed.

(** *** antithetic paths *)
Lemma twalk_mirror {G} (inc : G -> R -> R -> G * (list nat -> R)) gr v0 al ka b ix jx N g :
  (forall g t dt, snd (inc g t dt) jx = - snd (inc g t dt) ix) -> (forall n, ka n jx = ka n ix) -> (forall n, b n jx = b n ix) ->
  twalk inc gr v0 al ka b N g ix + twalk inc gr v0 al ka b N g jx = tmean gr v0 al ka ix N + tmean gr v0 al ka jx N.
Proof.
  intros HI HK HB. induction N as [|N IH]; [reflexivity|]. cbn [twalk tmean]. unfold move. rewrite HI, HK, HB.
  set (x := twalk _ _ _ _ _ _ N g ix) in *. set (y := twalk _ _ _ _ _ _ N g jx) in *. replace y with (tmean gr v0 al ka ix N + tmean gr v0 al ka jx N - x) by lra. ring.
Qed.
Lemma noise_mirror {G} (L : nat -> (G -> R) -> R) normal mvnormal corr rho c n paths vshape s r j g t dt :
  noise_source L normal mvnormal true corr rho c n paths vshape s -> inb vshape r -> (j < n)%nat ->
  snd (dw_inc (at_step s) g t dt) (r ++ [(n + j)%nat])%list = - snd (dw_inc (at_step s) g t dt) (r ++ [j])%list.
Proof.
  intros (HL & N_ok & M_ok & N_law & M_law & HC & -> & HS) Hr Hj. cbn [given_dw] in HS; unfold source_dw, source_setup in HS.
  unfold odd_wiener_source, antithetics_source in HS. destruct (C30_even_paths (2*n)) as [E0 _]. rewrite Nat.even_mul in E0. cbn [Nat.even orb] in E0. rewrite E0 in HS. cbn [rbind] in HS.
  replace (2*n/2)%nat with n in HS by (rewrite Nat.mul_comm, Nat.div_mul; lia).
  destruct (wiener_source normal mvnormal corr rho n vshape) as [s0|] eqn:E; [|discriminate]. cbn [rbind] in HS. injection HS as HS.
  destruct (wiener_gauss L HL normal mvnormal N_ok M_ok vshape n c N_law M_law corr rho HC s0 E) as [GV _].
  destruct (GV g t dt) as (g' & z & EZ & S). unfold at_step in EZ. destruct (s0 (ascalar t) (ascalar dt) g) as [[z1|] g1] eqn:E1; [|discriminate].
  injection EZ as -> ->. destruct (C30_halves (fun z => 0 - z) (s0 (ascalar t) (ascalar dt)) g z g' vshape n E1 S) as (z' & H1 & H2 & H3).
  unfold dw_inc, at_step. rewrite <- HS, H1. cbn [snd]. destruct (H3 r j Hr Hj) as [X Y].
  rewrite !(bget_self z') by (rewrite H2; apply inb_app; auto; repeat constructor; lia). rewrite X, Y. ring.
Qed.
