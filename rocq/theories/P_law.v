(** C71: the values given by an integration of a Wiener, lognormal, Merton or Kou process, with the sources made by the
    class, have exactly the law of the process: at all points of the timeline, jointly, for all entries and paths,
    whatever the steps. *)
From Coq Require Import String List Arith Bool ZArith Reals Lra Lia Sorting.Sorted.
From Coquelicot Require Import Coquelicot.
From Verif Require Import Base BaseOrd BaseNum BaseArr M_paths S_paths S_run L_ord L_paths8
  M_process M_source S_source M_sde S_sde L_sde L_sde2 L_sde3 M_presets S_presets L_presets M_integrate S_integrate P_source4 S_true2 S_euler L_euler L_euler2
  BaseNd BaseIdx L_nd M_rv S_rv M_analytical S_analytical M_jumps S_law P_chf S_info L_info L_info2 P_info L_law L_law2 L_law3 L_law4 L_law5 L_law6 L_law7 L_law8.
Import ListNotations.
Open Scope R_scope.
Local Notation len := List.length.

Lemma psi_wiener_0 m s : wiener_exponent m s 0%C = 0%C.
Proof. unfold wiener_exponent. ring. Qed.
Lemma cexp_R (x : R) : cexp (RtoC x) = RtoC (exp x).
Proof. unfold cexp, RtoC. cbn [fst snd]. rewrite cos_0, sin_0. f_equal; ring. Qed.

Section Law.
Context {G I : Type}.
(** means over random states of the generator, with d draws or more left *)
Variable L : nat -> (G -> R) -> R.
Hypothesis HL : is_law L.
Variables (normal : list nat -> G -> res (arr R) * G) (mvnormal : arr R -> list nat -> G -> res (arr R) * G).
Hypothesis N_ok : normal_ok normal.
Variables (vshape : list nat) (paths : nat).
Let w := (vshape ++ [paths])%list.
Hypothesis N_law : normal_law L normal w.
(** the source of dw made by the class, no correlations being given *)
Variable s : src (V := R) (G := G) (arr R).
Hypothesis HS : source_dw normal mvnormal GNone INone INone paths vshape = Ok s.
Variables (x0 mu sigma : arr R) (args : dict (M_sde.param R R)).
Hypothesis CM : const_arg args "mu" mu.
Hypothesis CS : const_arg args "sigma" sigma.
Hypothesis BX : broadcasts (shp x0) w.
Hypothesis BM : broadcasts (shp mu) w.
Hypothesis BS : broadcasts (shp sigma) w.
Variables (pace_fn : list R -> list R) (fuel : nat) (timeline : list R) (t0 : R).
Hypothesis V0 : valid_timeline timeline.
Hypothesis N0 : nth_error timeline 0 = Some t0.
Hypothesis HF : (len timeline + len (pace_fn timeline) <= fuel)%nat.

Lemma source_eq : s = wiener_call normal mvnormal paths vshape PNone.
Proof. injection HS as <-. reflexivity. Qed.
Lemma hm_real d f v : has_mean (L d) (fun g => RtoC (f g)) (RtoC v) -> L d f = v.
Proof. intros [H _]. exact H. Qed.

(** *** Wiener processes *)
Section Wiener.
Variables (gi : bool) (inf : I).
Let run g := sde_call Rminus (wiener_process (I := I) (at_step s) gi vshape paths x0 args) 0 pace_fn fuel (g, inf) [len timeline] timeline.
Theorem C71_wiener d : (len timeline + len (pace_fn timeline) <= d)%nat ->
  (forall g, exists s' xx, run g = Ok (s', xx)) /\
  levy_values (L d) w (fun ix => wiener_exponent (bget mu ix) (bget sigma ix)) (fun _ => True) (bget x0) timeline (fun g => value_at (run g)).
Proof using HL N_ok N_law HS CM CS BX BM BS V0 N0 HF.
  intro Hd. unfold run. rewrite source_eq.
  assert (DN : drift_noise w wiener_sde args (fun _ _ ix => bget mu ix) sigma).
  { destruct (wiener_drift w args mu sigma CM CS BM BS) as [B H]. split; [exact B|]. intros t x. destruct (H t x) as (a & E & C & V). exists a. split; [exact E|]. split; [exact C|]. intros ix HI. rewrite V by exact HI. ring. }
  destruct (dw_levy (I := I) L HL normal mvnormal N_ok vshape paths N_law wiener_sde false gi x0 sigma args (bget mu) (proj2 (can_broadcasts _ _) BX) pace_fn fuel inf timeline t0 V0 N0 HF DN d Hd) as (R1 & _ & R3).
  split; [exact R1|exact R3].
Qed.
Theorem C71_wiener_chf d i ti ix u : (len timeline + len (pace_fn timeline) <= d)%nat -> nth_error timeline i = Some ti -> inb w ix ->
  has_mean (L d) (fun g => cexp (cj u * RtoC (value_at (run g) i ix))%C) (wiener_chf (bget x0 ix) (bget mu ix) (bget sigma ix) (ti - t0) u).
Proof using HL N_ok N_law HS CM CS BX BM BS V0 N0 HF.
  intros Hd Ni HI. destruct (C71_wiener d Hd) as [_ H].
  assert (X := levy_chf (L d) w _ _ _ _ _ i ti t0 ix (cj u) (proj1 HL d) H HI Ni N0 Logic.I Logic.I (fun jx => psi_wiener_0 _ _)).
  cbv beta in X. replace (wiener_chf _ _ _ _ _) with (cexp (cj u * RtoC (bget x0 ix) + RtoC (ti - t0) * wiener_exponent (bget mu ix) (bget sigma ix) (cj u))%C); [exact X|].
  unfold wiener_chf. f_equal. unfold wiener_exponent, cj, Cminus, Cmult, Cplus, Copp, RtoC. cbn [fst snd]. f_equal; field.
Qed.
End Wiener.

(** *** lognormal processes *)
Section Lognorm.
Variables (gi : bool) (inf : I).
Let run g := sde_call Rminus (lognorm_process (I := I) (at_step s) gi vshape paths x0 args) 0 pace_fn fuel (g, inf) [len timeline] timeline.
Theorem C71_lognorm d : (len timeline + len (pace_fn timeline) <= d)%nat ->
  (forall g, exists s' xx, run g = Ok (s', xx)) /\
  (forall g i ix, (i < len timeline)%nat -> inb w ix -> 0 < value_at (run g) i ix) /\
  levy_values (L d) w (fun ix => wiener_exponent (bget mu ix - bget sigma ix * bget sigma ix / 2) (bget sigma ix)) (fun _ => True) (fun ix => ln (bget x0 ix)) timeline
    (fun g i ix => ln (value_at (run g) i ix)).
Proof using HL N_ok N_law HS CM CS BX BM BS V0 N0 HF.
  intro Hd. unfold run. rewrite source_eq.
  assert (DN : drift_noise w lognorm_sde args (fun _ _ ix => bget mu ix - bget sigma ix * bget sigma ix / 2) sigma).
  { destruct (lognorm_drift w args mu sigma CM CS BM BS) as [B H]. split; [exact B|]. intros t x. destruct (H t x) as (a & E & C & V). exists a. split; [exact E|]. split; [exact C|]. intros ix HI. rewrite V by exact HI. ring. }
  destruct (dw_levy (I := I) L HL normal mvnormal N_ok vshape paths N_law lognorm_sde true gi x0 sigma args _ (proj2 (can_broadcasts _ _) BX) pace_fn fuel inf timeline t0 V0 N0 HF DN d Hd) as (R1 & R2 & R3).
  split; [exact R1|]. split; [exact (R2 eq_refl)|exact R3].
Qed.
Lemma lognorm_exp d i ti ix z : (len timeline + len (pace_fn timeline) <= d)%nat -> nth_error timeline i = Some ti -> inb w ix ->
  has_mean (L d) (fun g => cexp (z * RtoC (ln (value_at (run g) i ix)))%C)
    (cexp (z * RtoC (ln (bget x0 ix)) + RtoC (ti - t0) * wiener_exponent (bget mu ix - bget sigma ix * bget sigma ix / 2) (bget sigma ix) z)%C).
Proof using HL N_ok N_law HS CM CS BX BM BS V0 N0 HF.
  intros Hd Ni HI. destruct (C71_lognorm d Hd) as (_ & _ & H).
  exact (levy_chf (L d) w _ _ _ _ _ i ti t0 ix z (proj1 HL d) H HI Ni N0 Logic.I Logic.I (fun jx => psi_wiener_0 _ _)).
Qed.
Theorem C71_lognorm_chf d i ti ix u : (len timeline + len (pace_fn timeline) <= d)%nat -> nth_error timeline i = Some ti -> inb w ix ->
  has_mean (L d) (fun g => cexp (cj u * RtoC (ln (value_at (run g) i ix)))%C) (lognorm_log_chf (bget x0 ix) (bget mu ix) (bget sigma ix) (ti - t0) u).
Proof using HL N_ok N_law HS CM CS BX BM BS V0 N0 HF.
  intros Hd Ni HI. assert (X := lognorm_exp d i ti ix (cj u) Hd Ni HI).
  replace (lognorm_log_chf _ _ _ _ _) with (cexp (cj u * RtoC (ln (bget x0 ix)) + RtoC (ti - t0) * wiener_exponent (bget mu ix - bget sigma ix * bget sigma ix / 2) (bget sigma ix) (cj u))%C); [exact X|].
  unfold lognorm_log_chf. cbv zeta. f_equal. unfold wiener_exponent, cj, Cminus, Cmult, Cplus, Copp, RtoC. cbn [fst snd]. f_equal; field.
Qed.
(** the mean and the variance of the prices, exactly *)
Theorem C71_lognorm_moments d i ti ix : (len timeline + len (pace_fn timeline) <= d)%nat -> nth_error timeline i = Some ti -> inb w ix -> 0 < bget x0 ix ->
  let X g := value_at (run g) i ix in
  L d X = lognorm_mean (bget x0 ix) (bget mu ix) (bget sigma ix) (ti - t0) /\
  L d (fun g => X g * X g) = L d X * L d X + lognorm_var (bget x0 ix) (bget mu ix) (bget sigma ix) (ti - t0).
Proof using HL N_ok N_law HS CM CS BX BM BS V0 N0 HF.
  intros Hd Ni HI HX. cbv zeta. destruct (C71_lognorm d Hd) as (_ & P & _).
  assert (Li : (i < len timeline)%nat) by (apply nth_error_Some; congruence).
  assert (X1 := lognorm_exp d i ti ix (RtoC 1) Hd Ni HI). assert (X2 := lognorm_exp d i ti ix (RtoC 2) Hd Ni HI).
  set (m := bget mu ix) in *. set (sg := bget sigma ix) in *. set (t := ti - t0) in *.
  assert (E1 : L d (fun g => value_at (run g) i ix) = lognorm_mean (bget x0 ix) m sg t).
  { apply hm_real. replace (RtoC (lognorm_mean (bget x0 ix) m sg t)) with (cexp (RtoC 1 * RtoC (ln (bget x0 ix)) + RtoC t * wiener_exponent (m - sg * sg / 2) sg (RtoC 1))%C).
    - eapply hm_ext; [exact HL| |exact X1]. intro g. cbv beta. rewrite Cmult_1_l, cexp_R, exp_ln by (apply P; auto). reflexivity.
    - unfold wiener_exponent, lognorm_mean. rewrite <- !RtoC_mult, <- RtoC_plus, <- RtoC_mult, <- RtoC_plus, cexp_R. f_equal. rewrite Rmult_1_l, exp_plus, exp_ln by auto. f_equal. f_equal. field. }
  split; [exact E1|]. rewrite E1. apply hm_real.
  replace (RtoC _) with (cexp (RtoC 2 * RtoC (ln (bget x0 ix)) + RtoC t * wiener_exponent (m - sg * sg / 2) sg (RtoC 2))%C).
  - eapply hm_ext; [exact HL| |exact X2]. intro g. cbv beta. rewrite <- RtoC_mult, cexp_R. f_equal. replace (2 * ln (value_at (run g) i ix)) with (ln (value_at (run g) i ix) + ln (value_at (run g) i ix)) by ring. rewrite exp_plus, exp_ln by (apply P; auto). reflexivity.
  - unfold wiener_exponent, lognorm_mean, lognorm_var. rewrite <- !RtoC_mult, <- RtoC_plus, <- RtoC_mult, <- RtoC_plus, cexp_R. f_equal.
    replace (2 * ln (bget x0 ix) + t * ((m - sg * sg/2) * 2 + sg * sg/2 * (2 * 2))) with (ln (bget x0 ix) + ln (bget x0 ix) + (2*m*t + sg*sg*t)) by field.
    rewrite !exp_plus, exp_ln by auto. replace (exp (2*m*t)) with (exp (m*t) * exp (m*t)) by (rewrite <- exp_plus; f_equal; ring). ring.
Qed.
End Lognorm.

(** *** jump diffusions *)
Section Jumps.
Variables (poisson : arr R -> list nat -> G -> res (arr Z) * G) (lam : arr R).
Hypothesis P_ok : poisson_ok poisson.
Hypothesis NE : ndindex w <> [].
Hypothesis BL : broadcasts (shp lam) w.
Hypothesis LP : forall ix, inb (shp lam) ix -> 0 <= dat lam ix.
(** Poisson variates, of mean lam times any step that the integration may take *)
Hypothesis P_law : forall a b, In a (timeline ++ pace_fn timeline)%list -> In b (timeline ++ pace_fn timeline)%list -> a < b ->
  poisson_law L poisson (amap (fun l => (b - a) * l) lam) w.
(** the jumps made, if the source exposes them, and whether they are logged *)
Variables (dn_value : G -> option (arr R)) (gi : bool) (inf : jinfo R).
Hypothesis DN_ok : forall g n, dn_value g = Some n -> broadcasts (shp n) w.
Variable sj : src (V := R) (G := G) (arr R).
Definition jump_run (g : G) := sde_call Rminus (jumpdiff_process Rminus (at_step s) (at_step sj) dn_value gi vshape paths x0 args) 0 pace_fn fuel (g, inf) [len timeline] timeline.
Definition jump_psi (J : C -> C) (ix : list nat) (z : C) : C :=
  (wiener_exponent (bget mu ix - bget sigma ix * bget sigma ix / 2) (bget sigma ix) z + jump_exponent (bget lam ix) J z)%C.
(** what is proved of the values *)
Definition jump_values (d : nat) (D : C -> Prop) (J : C -> C) : Prop :=
  (forall g, exists s' xx, jump_run g = Ok (s', xx)) /\
  (forall g i ix, (i < len timeline)%nat -> inb w ix -> 0 < value_at (jump_run g) i ix) /\
  levy_values (L d) w (jump_psi J) D (fun ix => ln (bget x0 ix)) timeline (fun g i ix => ln (value_at (jump_run g) i ix)).
Lemma jump_values_off d D J :
  let run g := sde_call Rminus (jumpdiff_process Rminus (at_step s) (at_step sj) dn_value false vshape paths x0 args) 0 pace_fn fuel (g, inf) [len timeline] timeline in
  (forall g, exists s' xx, run g = Ok (s', xx)) /\
  (forall g i ix, (i < len timeline)%nat -> inb w ix -> 0 < value_at (run g) i ix) /\
  levy_values (L d) w (jump_psi J) D (fun ix => ln (bget x0 ix)) timeline (fun g i ix => ln (value_at (run g) i ix)) ->
  jump_values d D J.
Proof using HL V0 N0 HF DN_ok.
  intros run (R1 & R2 & R3).
  assert (S0 : start_index (len timeline) 0 0).
  { assert (H : (0 < len timeline)%nat) by (apply nth_error_Some; congruence). unfold start_index. lia. }
  assert (Q : forall g, outcome (jump_run g) = outcome (run g)).
  { intro g. destruct (C73_presets (I := unit) Rminus 0 pace_fn fuel timeline 0 V0 S0 HF vshape paths args (at_step s) (at_step sj) dn_value 0%nat (fun l => l) x0 x0 g tt tt (ascalar 0%nat) (ascalar 0%nat) inf inf gi false) as (_ & _ & _ & _ & _ & _ & _ & H).
    apply H. exact DN_ok. }
  assert (VQ : forall g i ix, value_at (jump_run g) i ix = value_at (run g) i ix).
  { intros g i ix. specialize (Q g). destruct (jump_run g) as [[[g1 j1] x1]|], (run g) as [[[g2 j2] x2]|]; cbn [outcome rmap fst snd] in Q; try discriminate; [|reflexivity]. injection Q as _ <-. reflexivity. }
  split; [|split].
  - intro g. destruct (R1 g) as (s' & xx & E). specialize (Q g). rewrite E in Q. destruct (jump_run g) as [[s1 x1]|]; [eauto|discriminate].
  - intros g i ix Hi HI. rewrite VQ. apply R2; auto.
  - destruct R3 as [R3 R4]. split.
    + intros g ix HI. rewrite VQ. apply R3; auto.
    + intros theta k HD. cbv zeta. eapply hm_ext; [exact HL| |exact (R4 theta k HD)]. intro g. cbv beta. f_equal. f_equal. apply csum_ext. intros jx _. apply csum_ext. intros i _. rewrite !VQ. reflexivity.
Qed.
Lemma jump_exp d D J i ti ix z : jump_values d D J -> J 0%C = 1%C -> D 0%C -> D z -> nth_error timeline i = Some ti -> inb w ix ->
  has_mean (L d) (fun g => cexp (z * RtoC (ln (value_at (jump_run g) i ix)))%C) (cexp (z * RtoC (ln (bget x0 ix)) + RtoC (ti - t0) * jump_psi J ix z)%C).
Proof using HL N0.
  intros (_ & _ & H) J0 D0 Dz Ni HI.
  refine (levy_chf (L d) w _ _ _ _ _ i ti t0 ix z (proj1 HL d) H HI Ni N0 Dz D0 _). intro jx. unfold jump_psi, jump_exponent. rewrite psi_wiener_0, J0. ring.
Qed.
Lemma jump_mean d D J i ti ix m : jump_values d D J -> J 0%C = 1%C -> D 0%C -> D (RtoC 1) -> J (RtoC 1) = RtoC m -> nth_error timeline i = Some ti -> inb w ix -> 0 < bget x0 ix ->
  L d (fun g => value_at (jump_run g) i ix) = bget x0 ix * exp ((bget mu ix + bget lam ix * (m - 1)) * (ti - t0)).
Proof using HL N0.
  intros HV J0 D0 D1 J1 Ni HI HX. assert (X := jump_exp d D J i ti ix (RtoC 1) HV J0 D0 D1 Ni HI). destruct HV as (_ & P & _).
  assert (Li : (i < len timeline)%nat) by (apply nth_error_Some; congruence).
  apply hm_real. match type of X with has_mean _ _ ?v => replace (RtoC (bget x0 ix * _)) with v end.
  - eapply hm_ext; [exact HL| |exact X]. intro g. cbv beta. rewrite Cmult_1_l, cexp_R, exp_ln by (apply P; auto). reflexivity.
  - unfold jump_psi, jump_exponent, wiener_exponent. rewrite J1. rewrite <- RtoC_minus, <- !RtoC_mult, <- !RtoC_plus, <- RtoC_mult, <- RtoC_plus, cexp_R. f_equal. rewrite Rmult_1_l, exp_plus, exp_ln by auto. f_equal. f_equal. field.
Qed.

(** Merton: normal jumps *)
Section Merton.
Variables (std_normal : list nat -> G -> res (arr R) * G) (a b : R).
Hypothesis SN_ok : normal_ok std_normal.
Hypothesis SN_law : forall m j, normal_law L std_normal [m; j].
Hypothesis Hb : 0 <= b.
Hypothesis HJ : merton_source_dj std_normal poisson GNone GNone (IArr lam) (IArr (ascalar a)) (IArr (ascalar b)) paths vshape = Ok sj.
Theorem C71_merton d : ((len (ndindex w) + 2) * (len timeline + len (pace_fn timeline)) <= d)%nat -> jump_values d (fun _ => True) (normal_jump a b).
Proof using All.
  intro Hd. apply jump_values_off. cbv zeta. rewrite source_eq. rewrite (merton_is std_normal poisson vshape paths lam (proj2 (can_broadcasts _ _) BL) a b sj Hb HJ).
  refine (jumpdiff_levy L HL normal mvnormal poisson N_ok P_ok vshape paths NE N_law _ (fun _ => True) (normal_J a b) 1%nat (norm_total std_normal a b SN_ok) Logic.I (norm_jumps L HL std_normal SN_law a b)
    x0 mu sigma lam args CM CS BX BM BS BL LP pace_fn fuel inf timeline t0 V0 N0 HF P_law dn_value d _). fold w. lia.
Qed.
Lemma normal_jump_0 : normal_jump a b 0%C = 1%C.
Proof. unfold normal_jump. replace (_ + _)%C with (RtoC 0) by ring. apply cexp_0. Qed.
Theorem C71_merton_chf d i ti ix u : ((len (ndindex w) + 2) * (len timeline + len (pace_fn timeline)) <= d)%nat -> nth_error timeline i = Some ti -> inb w ix ->
  has_mean (L d) (fun g => cexp (cj u * RtoC (ln (value_at (jump_run g) i ix)))%C) (mjd_log_chf (bget x0 ix) (bget mu ix) (bget sigma ix) (bget lam ix) a b (ti - t0) u).
Proof using All.
  intros Hd Ni HI. assert (X := jump_exp d _ _ i ti ix (cj u) (C71_merton d Hd) normal_jump_0 Logic.I Logic.I Ni HI).
  match type of X with has_mean _ _ ?v => replace (mjd_log_chf _ _ _ _ _ _ _ _) with v end; [exact X|].
  unfold mjd_log_chf, jump_psi, jump_exponent, normal_jump. cbv zeta. replace (RtoC a * cj u + RtoC (b*b/2) * (cj u * cj u))%C with (cj a * RtoC u - RtoC (b*b*u*u/2)%R)%C.
  2: { unfold cj, Cminus, Cmult, Cplus, Copp, RtoC. cbn [fst snd]. f_equal; field. }
  f_equal. f_equal. f_equal. f_equal. unfold wiener_exponent, cj, Cminus, Cmult, Cplus, Copp, RtoC. cbn [fst snd]. f_equal; field.
Qed.
Theorem C71_merton_mean d i ti ix : ((len (ndindex w) + 2) * (len timeline + len (pace_fn timeline)) <= d)%nat -> nth_error timeline i = Some ti -> inb w ix -> 0 < bget x0 ix ->
  L d (fun g => value_at (jump_run g) i ix) = mjd_mean (bget x0 ix) (bget mu ix) (bget sigma ix) (bget lam ix) a b (ti - t0).
Proof using All.
  intros Hd Ni HI HX. refine (jump_mean d _ _ i ti ix (exp (a + b*b/2)) (C71_merton d Hd) normal_jump_0 Logic.I Logic.I _ Ni HI HX).
  unfold normal_jump. rewrite <- cexp_R. f_equal. unfold Cmult, Cplus, RtoC. cbn [fst snd]. f_equal; field.
Qed.
End Merton.

(** Kou: double exponential jumps *)
Section Kou.
Variables (std_exp std_uniform : list nat -> G -> res (arr R) * G) (a b pa : R).
Hypothesis SE_ok : normal_ok std_exp.
Hypothesis SU_ok : normal_ok std_uniform.
Hypothesis SE_law : forall m j, exp_law L std_exp [m; j].
Hypothesis SU_law : forall m j, uniform_law L std_uniform [m; j].
Hypothesis Ha : 0 < a.
Hypothesis Hb : 0 < b.
Hypothesis Hp : 0 <= pa <= 1.
Hypothesis HJ : kou_source_dj std_exp std_uniform poisson GNone GNone (IArr lam) (IArr (ascalar a)) (IArr (ascalar b)) (IArr (ascalar pa)) paths vshape = Ok sj.
Lemma double_0 : double_domain a b 0%C.
Proof. unfold double_domain. cbn [fst RtoC]. lra. Qed.
Theorem C71_kou d : ((3 * len (ndindex w) + 2) * (len timeline + len (pace_fn timeline)) <= d)%nat -> jump_values d (double_domain a b) (double_jump a b pa).
Proof using All.
  intro Hd. apply jump_values_off. cbv zeta. rewrite source_eq. rewrite (kou_is std_exp std_uniform poisson vshape paths lam (proj2 (can_broadcasts _ _) BL) a b pa sj Ha Hb Hp HJ).
  exact (jumpdiff_levy L HL normal mvnormal poisson N_ok P_ok vshape paths NE N_law _ (double_dom a b) (double_J a b pa) 3%nat (double_total std_exp std_uniform a b pa SE_ok SU_ok) double_0 (double_jumps L HL std_exp std_uniform SE_law SU_law a b pa Hp)
    x0 mu sigma lam args CM CS BX BM BS BL LP pace_fn fuel inf timeline t0 V0 N0 HF P_law dn_value d Hd).
Qed.
Lemma double_jump_0 : double_jump a b pa 0%C = 1%C.
Proof.
  unfold double_jump. replace (1 - RtoC a * 0)%C with (RtoC 1) by ring. replace (1 + RtoC b * 0)%C with (RtoC 1) by ring. replace (/ RtoC 1)%C with (RtoC 1) by (unfold Cinv, RtoC; cbn [fst snd]; f_equal; field).
  rewrite RtoC_minus. ring.
Qed.
Theorem C71_kou_chf d i ti ix u : ((3 * len (ndindex w) + 2) * (len timeline + len (pace_fn timeline)) <= d)%nat -> nth_error timeline i = Some ti -> inb w ix ->
  has_mean (L d) (fun g => cexp (cj u * RtoC (ln (value_at (jump_run g) i ix)))%C) (kou_log_chf (bget x0 ix) (bget mu ix) (bget sigma ix) (bget lam ix) a b pa (ti - t0) u).
Proof using All.
  intros Hd Ni HI.
  assert (DU : double_domain a b (cj u)) by (unfold double_domain, cj; cbn [fst]; lra).
  assert (X := jump_exp d _ _ i ti ix (cj u) (C71_kou d Hd) double_jump_0 double_0 DU Ni HI).
  match type of X with has_mean _ _ ?v => replace (kou_log_chf _ _ _ _ _ _ _ _ _) with v end; [exact X|].
  unfold kou_log_chf, jump_psi, jump_exponent, double_jump. cbv zeta.
  assert (NA : forall x, (1 + x*u*(x*u) <> 0)) by (intro x; nra).
  replace (RtoC pa * / (1 - RtoC a * cj u) + RtoC (1 - pa) * / (1 + RtoC b * cj u) - 1)%C with (cj u * (RtoC pa / (RtoC (1/a) - cj u) - RtoC (1 - pa) / (RtoC (1/b) + cj u)))%C.
  2: { replace (RtoC (1/a) - cj u)%C with (RtoC (/a) * (1 - RtoC a * cj u))%C by (unfold cj, Cminus, Cmult, Cplus, Copp, RtoC; cbn [fst snd]; f_equal; field; lra).
       replace (RtoC (1/b) + cj u)%C with (RtoC (/b) * (1 + RtoC b * cj u))%C by (unfold cj, Cminus, Cmult, Cplus, Copp, RtoC; cbn [fst snd]; f_equal; field; lra).
       assert (A1 : (1 - RtoC a * cj u)%C <> RtoC 0). { intro Q. apply (f_equal fst) in Q. unfold cj, Cminus, Cmult, Cplus, Copp, RtoC in Q. cbn [fst snd] in Q. lra. }
       assert (B1 : (1 + RtoC b * cj u)%C <> RtoC 0). { intro Q. apply (f_equal fst) in Q. unfold cj, Cminus, Cmult, Cplus, Copp, RtoC in Q. cbn [fst snd] in Q. lra. }
       rewrite RtoC_minus, !RtoC_inv by lra. field. repeat split; auto; intro Q; apply (f_equal fst) in Q; cbn in Q; lra. }
  f_equal. f_equal. f_equal. f_equal.
  - unfold wiener_exponent, cj, Cminus, Cmult, Cplus, Copp, RtoC. cbn [fst snd]. f_equal; field.
  - ring.
Qed.
(** the mean price, if finite *)
Theorem C71_kou_mean d i ti ix : a < 1 -> ((3 * len (ndindex w) + 2) * (len timeline + len (pace_fn timeline)) <= d)%nat -> nth_error timeline i = Some ti -> inb w ix -> 0 < bget x0 ix ->
  L d (fun g => value_at (jump_run g) i ix) = kou_mean (bget x0 ix) (bget mu ix) (bget sigma ix) (bget lam ix) a b pa (ti - t0).
Proof using All.
  intros Ha1 Hd Ni HI HX. refine (jump_mean d _ _ i ti ix (pa/(1 - a) + (1 - pa)/(1 + b)) (C71_kou d Hd) double_jump_0 double_0 _ _ Ni HI HX).
  - unfold double_domain. cbn [fst RtoC]. lra.
  - unfold double_jump. rewrite !Cmult_1_r, <- RtoC_minus, <- RtoC_plus, <- !RtoC_inv, <- !RtoC_mult, <- RtoC_plus by lra. reflexivity.
Qed.
End Kou.
End Jumps.
End Law.
Print Assumptions C71_wiener.
Print Assumptions C71_wiener_chf.
Print Assumptions C71_lognorm.
Print Assumptions C71_lognorm_chf.
Print Assumptions C71_lognorm_moments.
Print Assumptions C71_merton.
Print Assumptions C71_merton_chf.
Print Assumptions C71_merton_mean.
Print Assumptions C71_kou.
Print Assumptions C71_kou_chf.
Print Assumptions C71_kou_mean.

(** *** Examples: the generator of L_law8 follows the laws, two paths, times 0, 1, 2 with a step at 1/2 *)
Section Ex.
Definition ex_times : list R := [0; 1; 2].
Definition ex_pace (_ : list R) : list R := [1/2].
Definition ex_means (l : R) : list R := flat_map (fun a => map (fun b => (b - a) * l) (ex_times ++ ex_pace ex_times)) (ex_times ++ ex_pace ex_times).
Definition ex_args : dict (M_sde.param R R) := [("mu"%string, PConst (ascalar 0)); ("sigma"%string, PConst (ascalar 1))].
Lemma ex_valid : valid_timeline ex_times.
Proof. split; [discriminate|]. split; repeat constructor; unfold isnum; simpl; try (apply teqb_R_true; auto); try (apply tltb_R_true; lra). Qed.
Lemma ex_b (x : R) : broadcasts (shp (ascalar x)) ([] ++ [2%nat]).
Proof. exists [2%nat], []. split; [reflexivity|constructor]. Qed.
Lemma ex_poisson l a b : In a (ex_times ++ ex_pace ex_times) -> In b (ex_times ++ ex_pace ex_times) -> a < b ->
  poisson_law (the_law (ex_means l)) (the_poisson (ex_means l)) (amap (fun y => (b - a) * y) (ascalar l)) [2%nat].
Proof.
  intros Ia Ib _. apply the_poisson_law; [reflexivity|]. intros ix _. change (bget (amap (fun y => (b - a) * y) (ascalar l)) ix) with ((b - a) * l).
  unfold ex_means. apply in_flat_map. exists a. split; [exact Ia|]. apply in_map_iff. exists b. split; [reflexivity|exact Ib].
Qed.
(** a source that exposes some jumps *)
Definition ex_dn {G} (_ : G) : option (arr R) := Some (mkArr [2%nat] (fun _ => 1)).
Lemma ex_dn_ok {G} (g : G) n : ex_dn g = Some n -> broadcasts (shp n) ([] ++ [2%nat]).
Proof. intro E. injection E as <-. exists [], [2%nat]. split; [reflexivity|]. repeat constructor; auto. Qed.
(** dx/x = dw + jumps from 1, three jumps per unit of time, each doubling x on average: the mean at time 2 is exp(6) *)
Example C71_ex_merton s sj inf :
  let ls := ex_means 3 in
  source_dw (the_normal ls) (fun _ => the_normal ls) GNone INone INone 2 [] = Ok s ->
  merton_source_dj (the_normal ls) (the_poisson ls) GNone GNone (IArr (ascalar 3)) (IArr (ascalar (ln 2 - 1/2))) (IArr (ascalar 1)) 2 [] = Ok sj ->
  the_law ls 16 (fun g => value_at (jump_run [] 2 s (ascalar 1) ex_args ex_pace 4 ex_times ex_dn true inf sj g) 2 [1%nat]) = exp 6.
Proof.
  intros ls HS HJ.
  rewrite (C71_merton_mean (I := unit) (the_law ls) (the_is_law ls) (the_normal ls) (fun _ => the_normal ls) (the_normal_ok ls) [] 2 (the_normal_law ls _) s HS (ascalar 1) (ascalar 0) (ascalar 1) ex_args eq_refl eq_refl
    (ex_b 1) (ex_b 0) (ex_b 1) ex_pace 4 ex_times 0 ex_valid eq_refl ltac:(cbn; lia) (the_poisson ls) (ascalar 3) (the_poisson_ok ls) ltac:(discriminate) (ex_b 3) ltac:(intros; cbn; lra) (ex_poisson 3) ex_dn true inf ex_dn_ok sj
    (the_normal ls) (ln 2 - 1/2) 1 (the_normal_ok ls) (fun m j => the_normal_law ls [m; j]) ltac:(lra) HJ 16 2 2 [1%nat]).
  - change (bget (ascalar ?x) ?i) with x. unfold mjd_mean. cbv zeta. replace (ln 2 - 1/2 + 1*1/2) with (ln 2) by field. rewrite exp_ln by lra. rewrite Rmult_1_l. f_equal. ring.
  - cbn. lia.
  - reflexivity.
  - repeat constructor.
  - cbn. lra.
Qed.
(** jumps up and down, of mean 1/2 and -1 in logarithm, equally likely: the mean at time 2 is exp(2) *)
Example C71_ex_kou s sj inf :
  let ls := ex_means 4 in
  source_dw (the_normal ls) (fun _ => the_normal ls) GNone INone INone 2 [] = Ok s ->
  kou_source_dj (the_exp ls) (the_uniform ls) (the_poisson ls) GNone GNone (IArr (ascalar 4)) (IArr (ascalar (1/2))) (IArr (ascalar 1)) (IArr (ascalar (1/2))) 2 [] = Ok sj ->
  the_law ls 32 (fun g => value_at (jump_run [] 2 s (ascalar 1) ex_args ex_pace 4 ex_times (fun _ => None) true inf sj g) 2 [1%nat]) = exp 2.
Proof.
  intros ls HS HJ.
  rewrite (C71_kou_mean (I := unit) (the_law ls) (the_is_law ls) (the_normal ls) (fun _ => the_normal ls) (the_normal_ok ls) [] 2 (the_normal_law ls _) s HS (ascalar 1) (ascalar 0) (ascalar 1) ex_args eq_refl eq_refl
    (ex_b 1) (ex_b 0) (ex_b 1) ex_pace 4 ex_times 0 ex_valid eq_refl ltac:(cbn; lia) (the_poisson ls) (ascalar 4) (the_poisson_ok ls) ltac:(discriminate) (ex_b 4) ltac:(intros; cbn; lra) (ex_poisson 4) (fun _ => None) true inf ltac:(discriminate) sj
    (the_exp ls) (the_uniform ls) (1/2) 1 (1/2) (the_exp_ok ls) (the_uniform_ok ls) (fun m j => the_exp_law ls [m; j]) (fun m j => the_uniform_law ls [m; j]) ltac:(lra) ltac:(lra) ltac:(lra) HJ 32 2 2 [1%nat]).
  - change (bget (ascalar ?x) ?i) with x. unfold kou_mean. cbv zeta. rewrite Rmult_1_l. f_equal. field.
  - lra.
  - cbn. lia.
  - reflexivity.
  - repeat constructor.
  - cbn. lra.
Qed.
(** the sources of the examples are made *)
Example C71_ex_sources : let ls := ex_means 4 in
  (exists s, source_dw (the_normal ls) (fun _ => the_normal ls) GNone INone INone 2 [] = Ok s) /\
  (exists s, merton_source_dj (the_normal ls) (the_poisson ls) GNone GNone (IArr (ascalar 4)) (IArr (ascalar 0)) (IArr (ascalar 1)) 2 [] = Ok s) /\
  (exists s, kou_source_dj (the_exp ls) (the_uniform ls) (the_poisson ls) GNone GNone (IArr (ascalar 4)) (IArr (ascalar (1/2))) (IArr (ascalar 1)) (IArr (ascalar (1/2))) 2 [] = Ok s).
Proof. split; [eexists; reflexivity|]. split; [apply merton_exists; reflexivity|apply kou_exists; try reflexivity; lra]. Qed.
(** dx/x = dw: mean 1 at time 2, and mean square exp(2) *)
Example C71_ex_lognorm s : let ls := ex_means 0 in
  source_dw (the_normal ls) (fun _ => the_normal ls) GNone INone INone 2 [] = Ok s ->
  let X g := value_at (sde_call Rminus (lognorm_process (I := unit) (at_step s) false [] 2 (ascalar 1) ex_args) 0 ex_pace 4 (g, tt) [3%nat] ex_times) 2 [1%nat] in
  the_law ls 4 X = 1 /\ the_law ls 4 (fun g => X g * X g) = exp 2.
Proof.
  intros ls HS X.
  destruct (C71_lognorm_moments (I := unit) (the_law ls) (the_is_law ls) (the_normal ls) (fun _ => the_normal ls) (the_normal_ok ls) [] 2 (the_normal_law ls _) s HS (ascalar 1) (ascalar 0) (ascalar 1) ex_args eq_refl eq_refl
    (ex_b 1) (ex_b 0) (ex_b 1) ex_pace 4 ex_times 0 ex_valid eq_refl ltac:(cbn; lia) false tt 4 2 2 [1%nat] ltac:(cbn; lia) eq_refl ltac:(repeat constructor) ltac:(cbn; lra)) as [E1 E2].
  change (bget (ascalar ?x) ?i) with x in E1, E2. fold X in E1, E2.
  assert (M1 : the_law ls 4 X = 1). { refine (eq_trans E1 _). unfold lognorm_mean. rewrite Rmult_0_l, exp_0. ring. }
  split; [exact M1|]. refine (eq_trans E2 _). change (fun g => value_at _ _ _) with X. rewrite M1. unfold lognorm_var. replace (2*0*(2 - 0)) with 0 by ring. rewrite exp_0. replace (1*1*(2 - 0)) with 2 by ring. ring.
Qed.
End Ex.
