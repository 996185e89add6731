(** C74: the values given by an integration of a Wiener, lognormal, Ornstein-Uhlenbeck or Hull-White process with time
    dependent parameters and correlations, with the source made by the class or with antithetic paths, are jointly
    Gaussian at all points of the timeline (in the logarithm, for the lognormal process), and their means and covariances
    approach those of the process as steps get shorter; antithetic paths average exactly to the mean. *)
From Coq Require Import String List Arith Bool ZArith Reals Lra Lia.
From Coquelicot Require Import Coquelicot.
From Verif Require Import Base BaseOrd BaseNum BaseArr M_paths S_paths S_run L_ord L_paths8
  M_process M_source S_source M_sde S_sde L_sde L_sde2 L_sde3 M_presets S_presets L_presets M_integrate S_integrate P_source4 S_true2 S_euler L_euler L_euler2
  BaseNd BaseIdx S_process L_nd L_pack L_process P_source2 P_source3 M_rv S_rv M_analytical S_analytical M_anti S_law P_chf L_law L_law2 L_law4 L_law5 L_law8 S_gval L_gval L_gval2 L_gval3 L_gval4 L_gval5 L_gval6 P_gval
  S_tval L_tval L_tval2 L_tval3 L_tval4 L_tval5 L_tval6.
From Verif Require P_euler.
Import ListNotations.
Open Scope R_scope.
Local Notation len := List.length.

Section One.
Context {G I : Type}.
Variables (L : nat -> (G -> R) -> R) (normal : list nat -> G -> res (arr R) * G) (mvnormal : arr R -> list nat -> G -> res (arr R) * G).
Variables (anti : bool) (corr rho : input R) (c : R -> nat -> nat -> R) (n paths : nat) (vshape : list nat) (s : src (V := R) (G := G) (arr R)).
Hypothesis HS : noise_source L normal mvnormal anti corr rho c n paths vshape s.
Let w := (vshape ++ [paths])%list.
Let pcorr t := path_corr anti n (c t).
Variables (pace_fn : list R -> list R) (fuel : nat) (inf : I) (timeline : list R) (t0 T h e B : R) (d : nat).
Let N := len timeline.
Hypothesis ST : stepped timeline (pace_fn timeline) t0 T h d.
Hypothesis HF : (N + len (pace_fn timeline) <= fuel)%nat.
Hypothesis HB : 0 <= B.
Hypothesis He : 0 <= e.
Lemma one_close sde log gi x0 b args al ka : broadcasts (shp x0) w -> drift_noise_at w sde args al ka b ->
  (forall ix, inb w ix -> forall t, continuous (fun t => al t ix) t) -> (forall ix, inb w ix -> forall t, continuous (fun t => ka t ix) t) -> continuous_array w b -> continuous_corr w pcorr ->
  (forall ix, inb w ix -> varies (fun t => al t ix) ((1 + B)^2) (2*(1 + B)*e) h t0 (t0 + T)) -> (forall ix, inb w ix -> varies (fun t => ka t ix) B e h t0 (t0 + T)) ->
  array_varies w b B e h t0 (t0 + T) -> corr_varies w pcorr B e h t0 (t0 + T) ->
  let run g := sde_call Rminus (mk_sde (I := I) dw_ids (dw_src (at_step s)) log sde gi vshape paths x0 args) 0 pace_fn fuel (g, inf) [N] timeline in
  let v0 ix := if log then ln (bget x0 ix) else bget x0 ix in
  (forall g, exists s' xx, run g = Ok (s', xx)) /\
  (log = true -> forall g i ix, (i < N)%nat -> inb w ix -> 0 < value_at (run g) i ix) /\
  exists m v, gaussian (L d) (entries N w) (fun g a => let v := value_at (run g) (fst a) (snd a) in if log then ln v else v) m v /\
    (forall i ix, (i < N)%nat -> inb w ix ->
      Rabs (m (i, ix) - linear_mean (v0 ix) (fun t => ka t ix) (fun t => al t ix) t0 (nth i timeline 0)) <= vary_const B T * (1 + Rabs (v0 ix)) * (h + e) /\
      forall j jx, (j < N)%nat -> inb w jx ->
        Rabs (v (i, ix) (j, jx) - linear_cov (fun t => ka t ix) (fun t => ka t jx) (fun t => bget (b t) ix * bget (b t) jx * pcorr t ix jx) t0 (nth i timeline 0) (nth j timeline 0)) <= vary_const B T * (h + e)) /\
    (anti = true -> forall g i r j, (i < N)%nat -> inb vshape r -> (j < n)%nat ->
      let ix := (r ++ [j])%list in let jx := (r ++ [(n + j)%nat])%list in
      (forall t, bget (b t) jx = bget (b t) ix) -> (forall t, ka t jx = ka t ix) ->
      let val ix := let v := value_at (run g) i ix in if log then ln v else v in val ix + val jx = m (i, ix) + m (i, jx)).
Proof using HS ST HF HB He.
  intros BX HD CA CK CB CC VA VK VB VC run v0. destruct ST as (V0 & N0 & HT & Hd & Hh & FI).
  destruct (tone_gaussian (I := I) L (proj1 HS) vshape paths _ (at_step s) (noise_gauss _ _ _ _ _ _ _ _ _ _ _ HS) pace_fn fuel inf timeline t0 V0 N0 HF sde log gi x0 b args al ka
    (proj2 (can_broadcasts _ _) BX) HD d Hd) as (R1 & R2 & gr & kk & OT & R4 & R3).
  split; [exact R1|]. split; [exact R2|]. eexists _, _. split; [exact R3|]. split.
  - intros i ix Hi HI. cbn [fst snd]. split.
    + apply (lin_mean_close B T h e timeline (pace_fn timeline) t0 gr kk HB He HT Hh FI OT v0 al ka ix i); auto.
    + intros j jx Hj HJ. cbn [fst snd]. destruct CB as [_ CB]. apply (lin_cov_close B T h e timeline (pace_fn timeline) t0 gr kk HB He HT Hh FI OT ka (fun t => bget (b t)) pcorr ix jx i j); auto.
  - intros -> g i r j Hi Hr Hj ix jx EB EK val. cbn [fst snd]. assert (PP : paths = (2*n)%nat) by (destruct HS as (_ & _ & _ & _ & _ & _ & P & _); exact P).
    assert (HI : inb w ix) by (apply inb_app; auto; repeat constructor; lia). assert (HJ : inb w jx) by (apply inb_app; auto; repeat constructor; lia).
    refine (eq_trans (f_equal2 Rplus (R4 g i ix Hi HI) (R4 g i jx Hi HJ)) _). apply twalk_mirror; auto.
    intros g' t dt. apply (noise_mirror L normal mvnormal corr rho c n paths vshape s r j g' t dt HS Hr Hj).
Qed.
End One.

Lemma vary_log B e h lo hi (f g : R -> R) : 0 <= B -> 0 <= e -> varies f B e h lo hi -> varies g B e h lo hi -> varies (fun t => f t - g t * g t / 2) ((1 + B)^2) (2*(1 + B)*e) h lo hi.
Proof.
  intros HB He VF VG. eapply varies_weak; [apply (varies_minus_half _ _ _ _ _ _ _ _ _ VF (varies_mult _ _ _ _ _ _ _ _ _ VG VG))|cbn [pow]; nra|nra].
Qed.
Lemma vary_prod B e h lo hi (f g : R -> R) : 0 <= B -> 0 <= e -> varies f B e h lo hi -> varies g B e h lo hi -> varies (fun t => f t * g t) ((1 + B)^2) (2*(1 + B)*e) h lo hi.
Proof.
  intros HB He VF VG. eapply varies_weak; [apply (varies_mult _ _ _ _ _ _ _ _ _ VF VG)|cbn [pow]; nra|nra].
Qed.
Lemma vary_one B e h lo hi (f : R -> R) : 0 <= B -> 0 <= e -> varies f B e h lo hi -> varies f ((1 + B)^2) (2*(1 + B)*e) h lo hi.
Proof. intros HB He VF. eapply varies_weak; [exact VF|cbn [pow]; nra|nra]. Qed.
Lemma cont_zero (t : R) : continuous (fun _ : R => 0) t.
Proof. apply continuous_const. Qed.

(** *** distances from the process: e is the largest change of parameters and correlations within the longest step h *)
(** The constants only depend on the largest parameter B, and on the length T of the timeline. *)
Theorem C74_wiener (B T : R) : 0 <= B -> exists C, forall (G I : Type) (L : nat -> (G -> R) -> R) normal mvnormal anti corr rho c n paths vshape s
    gi (x0 : arr R) (mu sigma : R -> arr R) args pace_fn fuel (inf : I) (timeline : list R) t0 h e d,
  let w := (vshape ++ [paths])%list in let N := len timeline in let pcorr t := path_corr anti n (c t) in
  noise_source L normal mvnormal anti corr rho c n paths vshape s -> var_arg args "mu" mu -> var_arg args "sigma" sigma -> broadcasts (shp x0) w ->
  continuous_array w mu -> continuous_array w sigma -> continuous_corr w pcorr ->
  array_varies w mu B e h t0 (t0 + T) -> array_varies w sigma B e h t0 (t0 + T) -> corr_varies w pcorr B e h t0 (t0 + T) -> 0 <= e ->
  stepped timeline (pace_fn timeline) t0 T h d -> (N + len (pace_fn timeline) <= fuel)%nat ->
  let run (g : G) := sde_call Rminus (wiener_process (I := I) (at_step s) gi vshape paths x0 args) 0 pace_fn fuel (g, inf) [N] timeline in
  (forall g, exists s' xx, run g = Ok (s', xx)) /\
  exists m v, gaussian (L d) (entries N w) (fun g a => value_at (run g) (fst a) (snd a)) m v /\
    (forall i ix, (i < N)%nat -> inb w ix ->
      Rabs (m (i, ix) - (bget x0 ix + RInt (fun t => bget (mu t) ix) t0 (nth i timeline 0))) <= C * (1 + Rabs (bget x0 ix)) * (h + e) /\
      forall j jx, (j < N)%nat -> inb w jx ->
        Rabs (v (i, ix) (j, jx) - RInt (fun t => bget (sigma t) ix * bget (sigma t) jx * pcorr t ix jx) t0 (Rmin (nth i timeline 0) (nth j timeline 0))) <= C * (h + e)) /\
    (anti = true -> forall g i r j, (i < N)%nat -> inb vshape r -> (j < n)%nat ->
      let ix := (r ++ [j])%list in let jx := (r ++ [(n + j)%nat])%list in (forall t, bget (sigma t) jx = bget (sigma t) ix) ->
      value_at (run g) i ix + value_at (run g) i jx = m (i, ix) + m (i, jx)).
Proof.
  intro HB. exists (vary_const B T). intros G I L normal mvnormal anti corr rho c n paths vshape s gi x0 mu sigma args pace_fn fuel inf timeline t0 h e d w N pcorr
    HS CM CS BX [BM KM] [BS KS] KC VM VS VC He ST HF run.
  destruct (one_close (I := I) L normal mvnormal anti corr rho c n paths vshape s HS pace_fn fuel inf timeline t0 T h e B d ST HF HB He wiener_sde false gi x0 sigma args (fun t => bget (mu t)) (fun _ _ => 0)
    BX (wiener_drift_at w args mu sigma CM CS BM BS) KM (fun _ _ => cont_zero) (conj BS KS) KC) as (R1 & _ & m & v & R2 & R3 & R4); auto.
  - intros ix HI. apply vary_one; auto.
  - intros ix HI. apply varies_zero; auto.
  - split; [exact R1|]. exists m, v. split; [exact R2|]. split.
    + intros i ix Hi HI. destruct (R3 i ix Hi HI) as [X Y]. rewrite linear_mean_zero in X. split; [exact X|]. intros j jx Hj HJ. specialize (Y j jx Hj HJ). rewrite linear_cov_zero in Y. exact Y.
    + intros EA g i r j Hi Hr Hj ix jx ES. exact (R4 EA g i r j Hi Hr Hj ES (fun _ => eq_refl)).
Qed.
Theorem C74_lognorm (B T : R) : 0 <= B -> exists C, forall (G I : Type) (L : nat -> (G -> R) -> R) normal mvnormal anti corr rho c n paths vshape s
    gi (x0 : arr R) (mu sigma : R -> arr R) args pace_fn fuel (inf : I) (timeline : list R) t0 h e d,
  let w := (vshape ++ [paths])%list in let N := len timeline in let pcorr t := path_corr anti n (c t) in
  noise_source L normal mvnormal anti corr rho c n paths vshape s -> var_arg args "mu" mu -> var_arg args "sigma" sigma -> broadcasts (shp x0) w ->
  (forall ix, inb w ix -> 0 < bget x0 ix) ->
  continuous_array w mu -> continuous_array w sigma -> continuous_corr w pcorr ->
  array_varies w mu B e h t0 (t0 + T) -> array_varies w sigma B e h t0 (t0 + T) -> corr_varies w pcorr B e h t0 (t0 + T) -> 0 <= e ->
  stepped timeline (pace_fn timeline) t0 T h d -> (N + len (pace_fn timeline) <= fuel)%nat ->
  let run (g : G) := sde_call Rminus (lognorm_process (I := I) (at_step s) gi vshape paths x0 args) 0 pace_fn fuel (g, inf) [N] timeline in
  (forall g, exists s' xx, run g = Ok (s', xx)) /\
  (forall g i ix, (i < N)%nat -> inb w ix -> 0 < value_at (run g) i ix) /\
  exists m v, gaussian (L d) (entries N w) (fun g a => ln (value_at (run g) (fst a) (snd a))) m v /\
    (forall i ix, (i < N)%nat -> inb w ix ->
      Rabs (m (i, ix) - (ln (bget x0 ix) + RInt (fun t => bget (mu t) ix - bget (sigma t) ix * bget (sigma t) ix / 2) t0 (nth i timeline 0))) <= C * (1 + Rabs (ln (bget x0 ix))) * (h + e) /\
      forall j jx, (j < N)%nat -> inb w jx ->
        Rabs (v (i, ix) (j, jx) - RInt (fun t => bget (sigma t) ix * bget (sigma t) jx * pcorr t ix jx) t0 (Rmin (nth i timeline 0) (nth j timeline 0))) <= C * (h + e)) /\
    (anti = true -> forall g i r j, (i < N)%nat -> inb vshape r -> (j < n)%nat ->
      let ix := (r ++ [j])%list in let jx := (r ++ [(n + j)%nat])%list in (forall t, bget (sigma t) jx = bget (sigma t) ix) ->
      value_at (run g) i ix * value_at (run g) i jx = exp (m (i, ix) + m (i, jx))).
Proof.
  intro HB. exists (vary_const B T). intros G I L normal mvnormal anti corr rho c n paths vshape s gi x0 mu sigma args pace_fn fuel inf timeline t0 h e d w N pcorr
    HS CM CS BX XP [BM KM] [BS KS] KC VM VS VC He ST HF run.
  destruct (one_close (I := I) L normal mvnormal anti corr rho c n paths vshape s HS pace_fn fuel inf timeline t0 T h e B d ST HF HB He lognorm_sde true gi x0 sigma args
    (fun t ix => bget (mu t) ix - bget (sigma t) ix * bget (sigma t) ix / 2) (fun _ _ => 0)
    BX (lognorm_drift_at w args mu sigma CM CS BM BS)) as (R1 & RP & m & v & R2 & R3 & R4); auto.
  - intros ix HI t. apply (continuous_minus (fun t => bget (mu t) ix) (fun t => bget (sigma t) ix * bget (sigma t) ix / 2)); [auto|].
    apply (continuous_mult (fun t => bget (sigma t) ix * bget (sigma t) ix) (fun _ => /2)); [apply (continuous_mult (fun t => bget (sigma t) ix) (fun t => bget (sigma t) ix)); auto|apply continuous_const].
  - intros ix HI t. apply cont_zero.
  - split; auto.
  - intros ix HI. apply vary_log; auto.
  - intros ix HI. apply varies_zero; auto.
  - split; [exact R1|]. split; [exact (RP eq_refl)|]. exists m, v. split; [exact R2|]. split.
    + intros i ix Hi HI. destruct (R3 i ix Hi HI) as [X Y]. rewrite linear_mean_zero in X. split; [exact X|]. intros j jx Hj HJ. specialize (Y j jx Hj HJ). rewrite linear_cov_zero in Y. exact Y.
    + intros EA g i r j Hi Hr Hj ix jx ES. assert (PP : paths = (2*n)%nat) by (destruct HS as (_ & _ & _ & _ & _ & _ & P & _); rewrite EA in P; exact P).
      assert (HI : inb w ix) by (apply inb_app; auto; repeat constructor; lia). assert (HJ : inb w jx) by (apply inb_app; auto; repeat constructor; lia).
      assert (X := R4 EA g i r j Hi Hr Hj ES (fun _ => eq_refl)). cbv zeta in X. fold ix jx in X. rewrite <- X, exp_plus, !exp_ln by (apply (RP eq_refl); auto). reflexivity.
Qed.
Theorem C74_oruh (B T : R) : 0 <= B -> exists C, forall (G I : Type) (L : nat -> (G -> R) -> R) normal mvnormal anti corr rho c n paths vshape s
    gi (x0 : arr R) (theta k sigma : R -> arr R) args pace_fn fuel (inf : I) (timeline : list R) t0 h e d,
  let w := (vshape ++ [paths])%list in let N := len timeline in let pcorr t := path_corr anti n (c t) in
  noise_source L normal mvnormal anti corr rho c n paths vshape s -> var_arg args "theta" theta -> var_arg args "k" k -> var_arg args "sigma" sigma -> broadcasts (shp x0) w ->
  continuous_array w theta -> continuous_array w k -> continuous_array w sigma -> continuous_corr w pcorr ->
  array_varies w theta B e h t0 (t0 + T) -> array_varies w k B e h t0 (t0 + T) -> array_varies w sigma B e h t0 (t0 + T) -> corr_varies w pcorr B e h t0 (t0 + T) -> 0 <= e ->
  stepped timeline (pace_fn timeline) t0 T h d -> (N + len (pace_fn timeline) <= fuel)%nat ->
  let run (g : G) := sde_call Rminus (ou_process (I := I) (at_step s) gi vshape paths x0 args) 0 pace_fn fuel (g, inf) [N] timeline in
  (forall g, exists s' xx, run g = Ok (s', xx)) /\
  exists m v, gaussian (L d) (entries N w) (fun g a => value_at (run g) (fst a) (snd a)) m v /\
    (forall i ix, (i < N)%nat -> inb w ix ->
      Rabs (m (i, ix) - linear_mean (bget x0 ix) (fun t => bget (k t) ix) (fun t => bget (k t) ix * bget (theta t) ix) t0 (nth i timeline 0)) <= C * (1 + Rabs (bget x0 ix)) * (h + e) /\
      forall j jx, (j < N)%nat -> inb w jx ->
        Rabs (v (i, ix) (j, jx) - linear_cov (fun t => bget (k t) ix) (fun t => bget (k t) jx) (fun t => bget (sigma t) ix * bget (sigma t) jx * pcorr t ix jx) t0 (nth i timeline 0) (nth j timeline 0)) <= C * (h + e)) /\
    (anti = true -> forall g i r j, (i < N)%nat -> inb vshape r -> (j < n)%nat ->
      let ix := (r ++ [j])%list in let jx := (r ++ [(n + j)%nat])%list in
      (forall t, bget (sigma t) jx = bget (sigma t) ix) -> (forall t, bget (k t) jx = bget (k t) ix) ->
      value_at (run g) i ix + value_at (run g) i jx = m (i, ix) + m (i, jx)).
Proof.
  intro HB. exists (vary_const B T). intros G I L normal mvnormal anti corr rho c n paths vshape s gi x0 theta k sigma args pace_fn fuel inf timeline t0 h e d w N pcorr
    HS CT CK CS BX [BT KT] [BK KK] [BS KS] KC VT VK VS VC He ST HF run.
  destruct (one_close (I := I) L normal mvnormal anti corr rho c n paths vshape s HS pace_fn fuel inf timeline t0 T h e B d ST HF HB He ou_sde false gi x0 sigma args
    (fun t ix => bget (k t) ix * bget (theta t) ix) (fun t => bget (k t))
    BX (ou_drift_at w args theta k sigma CT CK CS BT BK BS)) as (R1 & _ & m & v & R2 & R3 & R4); auto.
  - intros ix HI t. apply (continuous_mult (fun t => bget (k t) ix) (fun t => bget (theta t) ix)); auto.
  - split; auto.
  - intros ix HI. apply vary_prod; auto.
  - split; [exact R1|]. exists m, v. auto.
Qed.
Print Assumptions C74_wiener.
Print Assumptions C74_lognorm.
Print Assumptions C74_oruh.

(** Hull-White process: the sum of the values of F factors *)
Theorem C74_hull_white (B T : R) : 0 <= B -> exists C, forall (G I : Type) (L : nat -> (G -> R) -> R) normal mvnormal anti corr rho c n paths vshape F s
    gi (x0 : arr R) (theta k sigma : R -> arr R) args pace_fn fuel (inf : I) (timeline : list R) t0 h e d,
  let w := (vshape ++ [F; paths])%list in let out := (vshape ++ [paths])%list in let N := len timeline in let pcorr t := path_corr anti n (c t) in
  noise_source L normal mvnormal anti corr rho c n paths (vshape ++ [F]) s -> var_arg args "theta" theta -> var_arg args "k" k -> var_arg args "sigma" sigma -> broadcasts (shp x0) w ->
  continuous_array w theta -> continuous_array w k -> continuous_array w sigma -> continuous_corr w pcorr ->
  array_varies w theta B e h t0 (t0 + T) -> array_varies w k B e h t0 (t0 + T) -> array_varies w sigma B e h t0 (t0 + T) -> corr_varies w pcorr B e h t0 (t0 + T) -> 0 <= e ->
  stepped timeline (pace_fn timeline) t0 T h d -> (N + len (pace_fn timeline) <= fuel)%nat ->
  let run (g : G) := sde_call Rminus (hull_white_process (I := I) (at_step s) gi vshape F paths x0 args) 0 pace_fn fuel (g, inf) [N] timeline in
  let sumf (f : nat -> R) := rsum f (seq 0 F) in
  (forall g, exists s' xx, run g = Ok (s', xx)) /\
  exists m v, gaussian (L d) (entries N out) (fun g a => value_at (run g) (fst a) (snd a)) m v /\
    forall i ix, (i < N)%nat -> inb out ix ->
      Rabs (m (i, ix) - sumf (fun f => let fx := ins2 f ix in linear_mean (bget x0 fx) (fun t => bget (k t) fx) (fun t => bget (k t) fx * bget (theta t) fx) t0 (nth i timeline 0)))
        <= C * (h + e) * sumf (fun f => 1 + Rabs (bget x0 (ins2 f ix))) /\
      forall j jx, (j < N)%nat -> inb out jx ->
        Rabs (v (i, ix) (j, jx) - sumf (fun f => sumf (fun f' => let fx := ins2 f ix in let fx' := ins2 f' jx in
                linear_cov (fun t => bget (k t) fx) (fun t => bget (k t) fx') (fun t => bget (sigma t) fx * bget (sigma t) fx' * pcorr t fx fx') t0 (nth i timeline 0) (nth j timeline 0))))
          <= C * (h + e) * sumf (fun _ => sumf (fun _ => 1)).
Proof.
  intro HB. exists (vary_const B T). intros G I L normal mvnormal anti corr rho c n paths vshape F s gi x0 theta k sigma args pace_fn fuel inf timeline t0 h e d w out N pcorr
    HS CT CK CS BX [BT KT] [BK KK] [BS KS] KC VT VK VS VC He ST HF run sumf.
  assert (W : ((vshape ++ [F]) ++ [paths])%list = w) by (unfold w; rewrite <- app_assoc; reflexivity).
  destruct ST as (V0 & N0 & HT & Hd & Hh & FI).
  destruct (thw_gaussian (I := I) L (proj1 HS) (vshape ++ [F]) paths _ (at_step s) (noise_gauss _ _ _ _ _ _ _ _ _ _ _ HS) pace_fn fuel inf timeline t0 V0 N0 HF vshape F eq_refl gi x0 args
    ltac:(rewrite W; apply can_broadcasts; exact BX) sigma (fun t ix => bget (k t) ix * bget (theta t) ix) (fun t => bget (k t)) ltac:(rewrite W; exact (ou_drift_at w args theta k sigma CT CK CS BT BK BS)) d Hd)
    as (R1 & gr & kk & OT & R3).
  split; [exact R1|]. eexists _, _. split; [exact R3|].
  assert (IN : forall ix f, inb out ix -> (f < F)%nat -> inb w (ins2 f ix)) by (intros; apply inb_ins2; auto).
  intros i ix Hi HI. cbn [fst snd]. split.
  - unfold sumf. apply rsum_close. intros f Hf. apply in_seq in Hf. cbv zeta. specialize (IN ix f HI ltac:(lia)). set (fx := ins2 f ix) in *.
    replace (vary_const B T * (h + e) * (1 + Rabs (bget x0 fx))) with (vary_const B T * (1 + Rabs (bget x0 fx)) * (h + e)) by ring.
    apply (lin_mean_close B T h e timeline (pace_fn timeline) t0 gr kk HB He HT Hh FI OT (bget x0) (fun t ix => bget (k t) ix * bget (theta t) ix) (fun t => bget (k t)) fx i); auto.
    + intro t. apply (continuous_mult (fun t => bget (k t) fx) (fun t => bget (theta t) fx)); auto.
    + apply vary_prod; auto.
  - intros j jx Hj HJ. cbn [fst snd]. unfold sumf. apply rsum_close. intros f Hf. apply in_seq in Hf. apply rsum_close. intros f' Hf'. apply in_seq in Hf'.
    cbv zeta. assert (IX := IN ix f HI ltac:(lia)). assert (JX := IN jx f' HJ ltac:(lia)). rewrite Rmult_1_r.
    apply (lin_cov_close B T h e timeline (pace_fn timeline) t0 gr kk HB He HT Hh FI OT (fun t => bget (k t)) (fun t => bget (sigma t)) pcorr (ins2 f ix) (ins2 f' jx) i j); auto.
Qed.
Print Assumptions C74_hull_white.

(** *** limits *)
Lemma limit_bounds w (la : list (R -> arr R)) r lo hi : lo <= hi -> (forall a, In a la -> continuous_array w a) -> continuous_corr w r ->
  exists B, 0 <= B /\ forall e, 0 < e -> exists d, 0 < d /\ forall h, h <= d -> (forall a, In a la -> array_varies w a B e h lo hi) /\ corr_varies w r B e h lo hi.
Proof.
  intros H CA CR. set (l1 := flat_map (fun a => map (fun ix t => bget (a t) ix) (ndindex w)) la). set (l2 := map (fun p t => r t (fst p) (snd p)) (list_prod (ndindex w) (ndindex w))).
  destruct (all_vary (l1 ++ l2) lo hi H) as (B & HB & Q).
  { intros f Hf. apply in_app_or in Hf. destruct Hf as [Hf|Hf].
    - apply in_flat_map in Hf. destruct Hf as (a & Ha & Hf). apply in_map_iff in Hf. destruct Hf as (ix & <- & HI). apply in_ndindex in HI. apply (CA a Ha). exact HI.
    - apply in_map_iff in Hf. destruct Hf as ([ix jx] & <- & HI). apply in_prod_iff in HI. destruct HI as [H1 H2]. apply in_ndindex in H1. apply in_ndindex in H2. apply CR; auto. }
  exists B. split; [exact HB|]. intros e He. destruct (Q e He) as (d & Hd & V). exists d. split; [exact Hd|]. intros h Hh. split.
  - intros a Ha ix HI. apply V; auto. apply in_or_app. left. apply in_flat_map. exists a. split; [exact Ha|]. apply in_map_iff. exists ix. split; [reflexivity|]. apply in_ndindex. exact HI.
  - intros ix jx HI HJ. apply V; auto. apply in_or_app. right. apply in_map_iff. exists (ix, jx). split; [reflexivity|]. apply in_prod_iff. split; apply in_ndindex; auto.
Qed.
Lemma entries_bound w (f : list nat -> R) : exists X, 0 <= X /\ forall ix, inb w ix -> Rabs (f ix) <= X.
Proof.
  assert (Q : forall l : list (list nat), exists X, 0 <= X /\ forall ix, In ix l -> Rabs (f ix) <= X).
  { induction l as [|a l (X & HX & H)]; [exists 0; split; [lra|easy]|]. exists (Rmax X (Rabs (f a))). split; [eapply Rle_trans; [exact HX|apply Rmax_l]|].
    intros ix [<-|HI]; [apply Rmax_r|eapply Rle_trans; [apply H; auto|apply Rmax_l]]. }
  destruct (Q (ndindex w)) as (X & HX & H). exists X. split; [exact HX|]. intros ix HI. apply H. apply in_ndindex. exact HI.
Qed.
Lemma small_enough C X eps : 0 <= X -> 0 < eps -> exists e, 0 < e /\ forall h x, 0 <= h -> h <= e -> 0 <= x <= X -> C * x * (h + e) <= eps.
Proof.
  intros HX HE. set (K := 2*(Rabs C + 1)*(X + 1)). assert (C0 := Rabs_pos C). assert (KP : 0 < K) by (unfold K; apply Rmult_lt_0_compat; lra).
  exists (eps/K). assert (EP : 0 < eps/K) by (apply Rdiv_lt_0_compat; auto). split; [exact EP|]. intros h x H1 H2 Hx.
  apply Rle_trans with ((Rabs C + 1)*(X + 1)*(eps/K + eps/K)).
  - apply Rle_trans with (Rabs C * x * (h + eps/K)); [apply Rmult_le_compat_r; [lra|]; apply Rmult_le_compat_r; [lra|apply Rle_abs]|].
    apply Rmult_le_compat; [apply Rmult_le_pos; lra|lra|apply Rmult_le_compat; lra|lra].
  - right. unfold K. field. split; lra.
Qed.
(** for parameters and correlations that are continuous, whatever the steps *)
Theorem C74_wiener_limit anti n paths vshape (c : R -> nat -> nat -> R) (x0 : arr R) (mu sigma : R -> arr R) t0 T eps :
  let w := (vshape ++ [paths])%list in let pcorr t := path_corr anti n (c t) in
  continuous_array w mu -> continuous_array w sigma -> continuous_corr w pcorr -> 0 <= T -> 0 < eps ->
  exists delta, 0 < delta /\ forall (G I : Type) (L : nat -> (G -> R) -> R) normal mvnormal corr rho s gi args pace_fn fuel (inf : I) (timeline : list R) h d,
  let N := len timeline in
  noise_source L normal mvnormal anti corr rho c n paths vshape s -> var_arg args "mu" mu -> var_arg args "sigma" sigma -> broadcasts (shp x0) w ->
  stepped timeline (pace_fn timeline) t0 T h d -> h <= delta -> (N + len (pace_fn timeline) <= fuel)%nat ->
  let run (g : G) := sde_call Rminus (wiener_process (I := I) (at_step s) gi vshape paths x0 args) 0 pace_fn fuel (g, inf) [N] timeline in
  exists m v, gaussian (L d) (entries N w) (fun g a => value_at (run g) (fst a) (snd a)) m v /\
    forall i ix, (i < N)%nat -> inb w ix ->
      Rabs (m (i, ix) - (bget x0 ix + RInt (fun t => bget (mu t) ix) t0 (nth i timeline 0))) <= eps /\
      forall j jx, (j < N)%nat -> inb w jx ->
        Rabs (v (i, ix) (j, jx) - RInt (fun t => bget (sigma t) ix * bget (sigma t) jx * pcorr t ix jx) t0 (Rmin (nth i timeline 0) (nth j timeline 0))) <= eps.
Proof.
  intros w pcorr KM KS KC HT HE. destruct (limit_bounds w [mu; sigma] pcorr t0 (t0 + T) ltac:(lra)) as (B & HB & Q); [intros a [<-|[<-|[]]]; auto|auto|].
  destruct (C74_wiener B T HB) as (C & HC). destruct (entries_bound w (bget x0)) as (X & HX & XB).
  destruct (small_enough C (1 + X) eps ltac:(lra) HE) as (e & He & S). destruct (Q e He) as (d0 & Hd0 & V).
  exists (Rmin d0 e). split; [apply Rmin_glb_lt; auto|].
  intros G I L normal mvnormal corr rho s gi args pace_fn fuel inf timeline h d N HS CM CS BX ST Hh HF run.
  assert (H1 : h <= d0) by (eapply Rle_trans; [exact Hh|apply Rmin_l]). assert (H2 : h <= e) by (eapply Rle_trans; [exact Hh|apply Rmin_r]).
  assert (H3 : 0 <= h) by apply ST. destruct (V h H1) as [VA VC].
  destruct (HC G I L normal mvnormal anti corr rho c n paths vshape s gi x0 mu sigma args pace_fn fuel inf timeline t0 h e d HS CM CS BX KM KS KC (VA _ (or_introl eq_refl)) (VA _ (or_intror (or_introl eq_refl))) VC ltac:(lra) ST HF)
    as (_ & m & v & R1 & R2 & _).
  exists m, v. split; [exact R1|]. intros i ix Hi HI. destruct (R2 i ix Hi HI) as [X1 X2]. split.
  - eapply Rle_trans; [exact X1|]. apply S; auto. assert (A := Rabs_pos (bget x0 ix)). specialize (XB ix HI). lra.
  - intros j jx Hj HJ. eapply Rle_trans; [apply (X2 j jx Hj HJ)|]. rewrite <- (Rmult_1_r C). apply S; auto. lra.
Qed.
Theorem C74_lognorm_limit anti n paths vshape (c : R -> nat -> nat -> R) (x0 : arr R) (mu sigma : R -> arr R) t0 T eps :
  let w := (vshape ++ [paths])%list in let pcorr t := path_corr anti n (c t) in
  continuous_array w mu -> continuous_array w sigma -> continuous_corr w pcorr -> (forall ix, inb w ix -> 0 < bget x0 ix) -> 0 <= T -> 0 < eps ->
  exists delta, 0 < delta /\ forall (G I : Type) (L : nat -> (G -> R) -> R) normal mvnormal corr rho s gi args pace_fn fuel (inf : I) (timeline : list R) h d,
  let N := len timeline in
  noise_source L normal mvnormal anti corr rho c n paths vshape s -> var_arg args "mu" mu -> var_arg args "sigma" sigma -> broadcasts (shp x0) w ->
  stepped timeline (pace_fn timeline) t0 T h d -> h <= delta -> (N + len (pace_fn timeline) <= fuel)%nat ->
  let run (g : G) := sde_call Rminus (lognorm_process (I := I) (at_step s) gi vshape paths x0 args) 0 pace_fn fuel (g, inf) [N] timeline in
  exists m v, gaussian (L d) (entries N w) (fun g a => ln (value_at (run g) (fst a) (snd a))) m v /\
    forall i ix, (i < N)%nat -> inb w ix ->
      Rabs (m (i, ix) - (ln (bget x0 ix) + RInt (fun t => bget (mu t) ix - bget (sigma t) ix * bget (sigma t) ix / 2) t0 (nth i timeline 0))) <= eps /\
      forall j jx, (j < N)%nat -> inb w jx ->
        Rabs (v (i, ix) (j, jx) - RInt (fun t => bget (sigma t) ix * bget (sigma t) jx * pcorr t ix jx) t0 (Rmin (nth i timeline 0) (nth j timeline 0))) <= eps.
Proof.
  intros w pcorr KM KS KC XP HT HE. destruct (limit_bounds w [mu; sigma] pcorr t0 (t0 + T) ltac:(lra)) as (B & HB & Q); [intros a [<-|[<-|[]]]; auto|auto|].
  destruct (C74_lognorm B T HB) as (C & HC). destruct (entries_bound w (fun ix => ln (bget x0 ix))) as (X & HX & XB).
  destruct (small_enough C (1 + X) eps ltac:(lra) HE) as (e & He & S). destruct (Q e He) as (d0 & Hd0 & V).
  exists (Rmin d0 e). split; [apply Rmin_glb_lt; auto|].
  intros G I L normal mvnormal corr rho s gi args pace_fn fuel inf timeline h d N HS CM CS BX ST Hh HF run.
  assert (H1 : h <= d0) by (eapply Rle_trans; [exact Hh|apply Rmin_l]). assert (H2 : h <= e) by (eapply Rle_trans; [exact Hh|apply Rmin_r]).
  assert (H3 : 0 <= h) by apply ST. destruct (V h H1) as [VA VC].
  destruct (HC G I L normal mvnormal anti corr rho c n paths vshape s gi x0 mu sigma args pace_fn fuel inf timeline t0 h e d HS CM CS BX XP KM KS KC (VA _ (or_introl eq_refl)) (VA _ (or_intror (or_introl eq_refl))) VC ltac:(lra) ST HF)
    as (_ & _ & m & v & R1 & R2 & _).
  exists m, v. split; [exact R1|]. intros i ix Hi HI. destruct (R2 i ix Hi HI) as [X1 X2]. split.
  - eapply Rle_trans; [exact X1|]. apply S; auto. assert (A := Rabs_pos (ln (bget x0 ix))). specialize (XB ix HI). lra.
  - intros j jx Hj HJ. eapply Rle_trans; [apply (X2 j jx Hj HJ)|]. rewrite <- (Rmult_1_r C). apply S; auto. lra.
Qed.
Theorem C74_oruh_limit anti n paths vshape (c : R -> nat -> nat -> R) (x0 : arr R) (theta k sigma : R -> arr R) t0 T eps :
  let w := (vshape ++ [paths])%list in let pcorr t := path_corr anti n (c t) in
  continuous_array w theta -> continuous_array w k -> continuous_array w sigma -> continuous_corr w pcorr -> 0 <= T -> 0 < eps ->
  exists delta, 0 < delta /\ forall (G I : Type) (L : nat -> (G -> R) -> R) normal mvnormal corr rho s gi args pace_fn fuel (inf : I) (timeline : list R) h d,
  let N := len timeline in
  noise_source L normal mvnormal anti corr rho c n paths vshape s -> var_arg args "theta" theta -> var_arg args "k" k -> var_arg args "sigma" sigma -> broadcasts (shp x0) w ->
  stepped timeline (pace_fn timeline) t0 T h d -> h <= delta -> (N + len (pace_fn timeline) <= fuel)%nat ->
  let run (g : G) := sde_call Rminus (ou_process (I := I) (at_step s) gi vshape paths x0 args) 0 pace_fn fuel (g, inf) [N] timeline in
  exists m v, gaussian (L d) (entries N w) (fun g a => value_at (run g) (fst a) (snd a)) m v /\
    forall i ix, (i < N)%nat -> inb w ix ->
      Rabs (m (i, ix) - linear_mean (bget x0 ix) (fun t => bget (k t) ix) (fun t => bget (k t) ix * bget (theta t) ix) t0 (nth i timeline 0)) <= eps /\
      forall j jx, (j < N)%nat -> inb w jx ->
        Rabs (v (i, ix) (j, jx) - linear_cov (fun t => bget (k t) ix) (fun t => bget (k t) jx) (fun t => bget (sigma t) ix * bget (sigma t) jx * pcorr t ix jx) t0 (nth i timeline 0) (nth j timeline 0)) <= eps.
Proof.
  intros w pcorr KT KK KS KC HT HE. destruct (limit_bounds w [theta; k; sigma] pcorr t0 (t0 + T) ltac:(lra)) as (B & HB & Q); [intros a [<-|[<-|[<-|[]]]]; auto|auto|].
  destruct (C74_oruh B T HB) as (C & HC). destruct (entries_bound w (bget x0)) as (X & HX & XB).
  destruct (small_enough C (1 + X) eps ltac:(lra) HE) as (e & He & S). destruct (Q e He) as (d0 & Hd0 & V).
  exists (Rmin d0 e). split; [apply Rmin_glb_lt; auto|].
  intros G I L normal mvnormal corr rho s gi args pace_fn fuel inf timeline h d N HS CT CK CS BX ST Hh HF run.
  assert (H1 : h <= d0) by (eapply Rle_trans; [exact Hh|apply Rmin_l]). assert (H2 : h <= e) by (eapply Rle_trans; [exact Hh|apply Rmin_r]).
  assert (H3 : 0 <= h) by apply ST. destruct (V h H1) as [VA VC].
  destruct (HC G I L normal mvnormal anti corr rho c n paths vshape s gi x0 theta k sigma args pace_fn fuel inf timeline t0 h e d HS CT CK CS BX KT KK KS KC
    (VA _ (or_introl eq_refl)) (VA _ (or_intror (or_introl eq_refl))) (VA _ (or_intror (or_intror (or_introl eq_refl)))) VC ltac:(lra) ST HF) as (_ & m & v & R1 & R2 & _).
  exists m, v. split; [exact R1|]. intros i ix Hi HI. destruct (R2 i ix Hi HI) as [X1 X2]. split.
  - eapply Rle_trans; [exact X1|]. apply S; auto. assert (A := Rabs_pos (bget x0 ix)). specialize (XB ix HI). lra.
  - intros j jx Hj HJ. eapply Rle_trans; [apply (X2 j jx Hj HJ)|]. rewrite <- (Rmult_1_r C). apply S; auto. lra.
Qed.
Theorem C74_hull_white_limit anti n paths vshape F (c : R -> nat -> nat -> R) (x0 : arr R) (theta k sigma : R -> arr R) t0 T eps :
  let w := (vshape ++ [F; paths])%list in let out := (vshape ++ [paths])%list in let pcorr t := path_corr anti n (c t) in
  continuous_array w theta -> continuous_array w k -> continuous_array w sigma -> continuous_corr w pcorr -> 0 <= T -> 0 < eps ->
  exists delta, 0 < delta /\ forall (G I : Type) (L : nat -> (G -> R) -> R) normal mvnormal corr rho s gi args pace_fn fuel (inf : I) (timeline : list R) h d,
  let N := len timeline in
  noise_source L normal mvnormal anti corr rho c n paths (vshape ++ [F]) s -> var_arg args "theta" theta -> var_arg args "k" k -> var_arg args "sigma" sigma -> broadcasts (shp x0) w ->
  stepped timeline (pace_fn timeline) t0 T h d -> h <= delta -> (N + len (pace_fn timeline) <= fuel)%nat ->
  let run (g : G) := sde_call Rminus (hull_white_process (I := I) (at_step s) gi vshape F paths x0 args) 0 pace_fn fuel (g, inf) [N] timeline in
  let sumf (f : nat -> R) := rsum f (seq 0 F) in
  exists m v, gaussian (L d) (entries N out) (fun g a => value_at (run g) (fst a) (snd a)) m v /\
    forall i ix, (i < N)%nat -> inb out ix ->
      Rabs (m (i, ix) - sumf (fun f => let fx := ins2 f ix in linear_mean (bget x0 fx) (fun t => bget (k t) fx) (fun t => bget (k t) fx * bget (theta t) fx) t0 (nth i timeline 0))) <= eps /\
      forall j jx, (j < N)%nat -> inb out jx ->
        Rabs (v (i, ix) (j, jx) - sumf (fun f => sumf (fun f' => let fx := ins2 f ix in let fx' := ins2 f' jx in
                linear_cov (fun t => bget (k t) fx) (fun t => bget (k t) fx') (fun t => bget (sigma t) fx * bget (sigma t) fx' * pcorr t fx fx') t0 (nth i timeline 0) (nth j timeline 0)))) <= eps.
Proof.
  intros w out pcorr KT KK KS KC HT HE. destruct (limit_bounds w [theta; k; sigma] pcorr t0 (t0 + T) ltac:(lra)) as (B & HB & Q); [intros a [<-|[<-|[<-|[]]]]; auto|auto|].
  destruct (C74_hull_white B T HB) as (C & HC). destruct (entries_bound out (fun ix => rsum (fun f => 1 + Rabs (bget x0 (ins2 f ix))) (seq 0 F))) as (X & HX & XB).
  set (Y := rsum (fun _ => rsum (fun _ => 1) (seq 0 F)) (seq 0 F)).
  assert (RP : forall (f : nat -> R) l, (forall a, 0 <= f a) -> 0 <= rsum f l).
  { intros f l Hf. unfold rsum. induction l as [|a l IH]; cbn [map fold_right]; [lra|]. specialize (Hf a). lra. }
  assert (YP : 0 <= Y) by (apply RP; intro; apply RP; intro; lra).
  destruct (small_enough C (X + Y) eps ltac:(lra) HE) as (e & He & S). destruct (Q e He) as (d0 & Hd0 & V).
  exists (Rmin d0 e). split; [apply Rmin_glb_lt; auto|].
  intros G I L normal mvnormal corr rho s gi args pace_fn fuel inf timeline h d N HS CT CK CS BX ST Hh HF run sumf.
  assert (H1 : h <= d0) by (eapply Rle_trans; [exact Hh|apply Rmin_l]). assert (H2 : h <= e) by (eapply Rle_trans; [exact Hh|apply Rmin_r]).
  assert (H3 : 0 <= h) by apply ST. destruct (V h H1) as [VA VC].
  destruct (HC G I L normal mvnormal anti corr rho c n paths vshape F s gi x0 theta k sigma args pace_fn fuel inf timeline t0 h e d HS CT CK CS BX KT KK KS KC
    (VA _ (or_introl eq_refl)) (VA _ (or_intror (or_introl eq_refl))) (VA _ (or_intror (or_intror (or_introl eq_refl)))) VC ltac:(lra) ST HF) as (_ & m & v & R1 & R2).
  exists m, v. split; [exact R1|]. intros i ix Hi HI. destruct (R2 i ix Hi HI) as [X1 X2]. split.
  - eapply Rle_trans; [exact X1|]. match goal with |- C * (h + e) * ?z <= _ => replace (C * (h + e) * z) with (C * z * (h + e)) by ring end. apply S; auto. specialize (XB ix HI). cbv beta in XB.
    assert (A : 0 <= rsum (fun f => 1 + Rabs (bget x0 (ins2 f ix))) (seq 0 F)) by (apply RP; intro a; assert (Z := Rabs_pos (bget x0 (ins2 a ix))); lra). rewrite Rabs_pos_eq in XB by exact A. lra.
  - intros j jx Hj HJ. eapply Rle_trans; [apply (X2 j jx Hj HJ)|]. change (rsum (fun _ : nat => rsum (fun _ : nat => 1) (seq 0 F)) (seq 0 F)) with Y.
    replace (C * (h + e) * Y) with (C * Y * (h + e)) by ring. apply S; auto. lra.
Qed.
Print Assumptions C74_wiener_limit.
Print Assumptions C74_lognorm_limit.
Print Assumptions C74_oruh_limit.
Print Assumptions C74_hull_white_limit.

(** *** the means and covariances that are approached *)
Lemma int_scal (g : R -> R) a b x : (forall t, continuous g t) -> x * RInt g a b = RInt (fun r => x * g r) a b.
Proof. intro CG. symmetry. exact (RInt_scal (V := R_CompleteNormedModule) g a b x (int_ok g CG a b)). Qed.
Lemma int_same (g g' : R -> R) a b : (forall t, g t = g' t) -> RInt g a b = RInt g' a b.
Proof. intro H. apply RInt_ext. intros r _. apply H. Qed.
Section Odes.
Variables (k1 k2 f al : R -> R) (x0 t0 : R).
Hypothesis C1 : forall t, continuous k1 t.
Hypothesis C2 : forall t, continuous k2 t.
Hypothesis CF : forall t, continuous f t.
Hypothesis CA : forall t, continuous al t.
Lemma decay_pos k r t : 0 < decay k r t.
Proof. apply exp_pos. Qed.
Lemma decay_from k r t : (forall t, continuous k t) -> decay k r t = decay k t0 t * / decay k t0 r.
Proof. intro CK. rewrite <- (decay_chasles k CK t0 r t). field. apply Rgt_not_eq, decay_pos. Qed.
Lemma is_derive_decay (k : R -> R) (t : R) : (forall t, continuous k t) -> is_derive (fun t => decay k t0 t) t (- k t * decay k t0 t).
Proof.
  intro CK. unfold decay. assert (X : is_derive (fun t => RInt k t0 t) t (k t)).
  { apply (is_derive_RInt (V := R_NormedModule) k (fun t => RInt k t0 t) t0 t); [|apply CK].
    apply filter_forall. intro y. apply (RInt_correct (V := R_CompleteNormedModule)). apply int_ok; auto. }
  set (I := fun t => RInt k t0 t) in *. change (is_derive (fun t => exp (- I t)) t (- k t * exp (- I t))). clearbody I.
  assert (Z := is_derive_comp exp (fun t => - I t) t _ _ (is_derive_exp (- I t)) (is_derive_opp (K := R_AbsRing) (V := R_NormedModule) I t (k t) X)). exact Z.
Qed.
Lemma is_derive_int (g : R -> R) (t : R) : (forall t, continuous g t) -> is_derive (fun t => RInt g t0 t) t (g t).
Proof.
  intro CG. apply (is_derive_RInt (V := R_NormedModule) g (fun t => RInt g t0 t) t0 t); [|apply CG].
  apply filter_forall. intro y. apply (RInt_correct (V := R_CompleteNormedModule)). apply int_ok; auto.
Qed.
Lemma inv_decay_cont (k : R -> R) (t : R) : (forall t, continuous k t) -> continuous (fun r => / decay k t0 r) t.
Proof.
  intro CK. apply (ex_derive_continuous (K := R_AbsRing) (V := R_NormedModule)). assert (X := is_derive_decay k t CK). apply (ex_derive_inv (fun t => decay k t0 t)); [eexists; exact X|]. apply Rgt_not_eq, decay_pos.
Qed.
(** m' = al - k m, from x0 at t0 *)
Theorem C74_mean_ode t : linear_mean x0 k1 al t0 t0 = x0 /\ is_derive (linear_mean x0 k1 al t0) t (al t - k1 t * linear_mean x0 k1 al t0 t).
Proof using C1 CA.
  assert (ML : forall t, linear_mean x0 k1 al t0 t = decay k1 t0 t * (x0 + RInt (fun r => / decay k1 t0 r * al r) t0 t)).
  { intro u. unfold linear_mean. rewrite Rmult_plus_distr_l. f_equal. rewrite (int_scal (fun r => / decay k1 t0 r * al r)).
    - apply int_same. intro r. rewrite (decay_from k1 r u C1). ring.
    - intro r. apply (continuous_mult (fun r => / decay k1 t0 r) al); [apply inv_decay_cont; auto|apply CA]. }
  split.
  - unfold linear_mean. unfold decay at 1. rewrite !RInt_point. change (@zero R_NormedModule) with 0. change (@zero R_CompleteNormedModule) with 0. rewrite Ropp_0, exp_0. ring.
  - apply (is_derive_ext (fun t => decay k1 t0 t * (x0 + RInt (fun r => / decay k1 t0 r * al r) t0 t))); [intro u; rewrite ML; reflexivity|].
    assert (X := is_derive_decay k1 t C1).
    assert (Y := is_derive_int (fun r => / decay k1 t0 r * al r) t ltac:(intro r; apply (continuous_mult (fun r => / decay k1 t0 r) al); [apply inv_decay_cont; auto|apply CA])).
    rewrite ML. cbv beta in Y. set (I := fun t => RInt (fun r => / decay k1 t0 r * al r) t0 t) in *. change (RInt (fun r => / decay k1 t0 r * al r) t0 t) with (I t).
    assert (Z := is_derive_mult (fun t => decay k1 t0 t) (fun t => x0 + I t) t _ _ X (is_derive_plus (fun _ => x0) I t _ _ (is_derive_const x0 t) Y) Rmult_comm).
    cbv beta in Z. replace (al t - k1 t * (decay k1 t0 t * (x0 + I t))) with (plus (mult (- k1 t * decay k1 t0 t) (x0 + I t)) (mult (decay k1 t0 t) (plus zero (/ decay k1 t0 t * al t)))); [exact Z|].
    unfold plus, mult, zero. cbn. field. apply Rgt_not_eq, decay_pos.
Qed.
(** v' = f - (k1 + k2) v, from 0 at t0, for the covariance v of values at the same time *)
Theorem C74_cov_ode t : linear_cov k1 k2 f t0 t0 t0 = 0 /\ is_derive (fun t => linear_cov k1 k2 f t0 t t) t (f t - (k1 t + k2 t) * linear_cov k1 k2 f t0 t t).
Proof using C1 C2 CF.
  set (g := fun r => / decay k1 t0 r * / decay k2 t0 r * f r).
  assert (CG : forall r, continuous g r).
  { intro r. unfold g. apply (continuous_mult (fun r => / decay k1 t0 r * / decay k2 t0 r) f); [|apply CF].
    apply (continuous_mult (fun r => / decay k1 t0 r) (fun r => / decay k2 t0 r)); apply inv_decay_cont; auto. }
  assert (ML : forall t, linear_cov k1 k2 f t0 t t = decay k1 t0 t * decay k2 t0 t * RInt g t0 t).
  { intro u. unfold linear_cov. rewrite Rmin_left by lra. rewrite (int_scal g) by auto.
    apply int_same. intro r. rewrite (decay_from k1 r u C1), (decay_from k2 r u C2). unfold g. ring. }
  split.
  - rewrite ML, RInt_point. change (@zero R_NormedModule) with 0. change (@zero R_CompleteNormedModule) with 0. ring.
  - apply (is_derive_ext (fun t => decay k1 t0 t * decay k2 t0 t * RInt g t0 t)); [intro u; rewrite ML; reflexivity|].
    assert (X1 := is_derive_decay k1 t C1). assert (X2 := is_derive_decay k2 t C2). assert (Y := is_derive_int g t CG).
    rewrite ML. set (I := fun t => RInt g t0 t) in *. change (RInt g t0 t) with (I t).
    assert (Z := is_derive_mult (fun t => decay k1 t0 t * decay k2 t0 t) I t _ _ (is_derive_mult (fun t => decay k1 t0 t) (fun t => decay k2 t0 t) t _ _ X1 X2 Rmult_comm) Y Rmult_comm).
    cbv beta in Z. match type of Z with is_derive _ _ ?a => replace (f t - (k1 t + k2 t) * (decay k1 t0 t * decay k2 t0 t * I t)) with a; [exact Z|] end.
    unfold plus, mult, g. cbn. field. split; apply Rgt_not_eq, decay_pos.
Qed.
(** values at different times *)
Theorem C74_cov_times s t : s <= t -> linear_cov k1 k2 f t0 s t = linear_cov k1 k2 f t0 s s * decay k2 s t /\ linear_cov k1 k2 f t0 t s = linear_cov k1 k2 f t0 s s * decay k1 s t.
Proof using C1 C2 CF.
  intro H. unfold linear_cov. rewrite (Rmin_left s t), (Rmin_right t s), (Rmin_left s s) by lra.
  assert (CI : forall r, continuous (fun r => decay k1 r s * decay k2 r s * f r) r).
  { intro r. apply (continuous_mult (fun r => decay k1 r s * decay k2 r s) f); [|apply CF]. apply (continuous_mult (fun r => decay k1 r s) (fun r => decay k2 r s)); apply decay_cont; auto. }
  rewrite !(Rmult_comm (RInt _ _ _)), !(int_scal _ _ _ _ CI).
  split; apply int_same; intro r; [rewrite <- (decay_chasles k2 C2 r s t)|rewrite <- (decay_chasles k1 C1 r s t)]; ring.
Qed.
End Odes.
Print Assumptions C74_mean_ode.
Print Assumptions C74_cov_ode.
Print Assumptions C74_cov_times.
(** with constant parameters, those of C72 *)
Theorem C74_constant x theta k sigma k1 k2 q t0 s t : t0 <= s -> t0 <= t ->
  linear_mean x (fun _ => k) (fun _ => k*theta) t0 t = oruh_mean x theta k sigma (t - t0) /\
  linear_cov (fun _ => k1) (fun _ => k2) (fun _ => q) t0 s t = q * revert_cov k1 k2 (s - t0) (t - t0).
Proof.
  intros Hs Ht. assert (D : forall k r t, decay (fun _ => k) r t = exp (-k*(t - r))).
  { intros k' r u. unfold decay. rewrite RInt_const. unfold scal. cbn. unfold mult. cbn. f_equal. ring. }
  split.
  - unfold linear_mean, oruh_mean. rewrite D. 
    assert (X : is_RInt (fun r => decay (fun _ => k) r t * (k*theta)) t0 t (minus (exp (-k*(t - t)) * theta) (exp (-k*(t - t0)) * theta))).
    { apply (is_RInt_ext (fun r => k * (exp (-k*(t - r)) * theta))); [intros r _; rewrite D; match goal with |- ?a = ?b => change (@eq R a b) end; ring|].
      apply (is_RInt_derive (fun r => exp (-k*(t - r)) * theta)).
      - intros r _. auto_derive; auto. match goal with |- ?a = ?b => change (@eq R a b) end. unfold Rminus. ring.
      - intros r _. apply (ex_derive_continuous (fun r => k * (exp (-k*(t - r)) * theta))). auto_derive. auto. }
    rewrite (is_RInt_unique _ _ _ _ X). unfold minus, plus, opp. cbn. replace (-k*(t - t)) with 0 by ring. rewrite exp_0. ring.
  - unfold linear_cov, revert_cov. replace (Rmin (s - t0) (t - t0)) with (Rmin s t - t0) by (unfold Rmin; destruct (Rle_dec s t), (Rle_dec (s - t0) (t - t0)); lra).
    set (g := fun r => exp (-k1*(s - t0 - r)) * exp (-k2*(t - t0 - r))).
    assert (CG : forall r, continuous g r) by (intro r; apply (ex_derive_continuous g); unfold g; auto_derive; auto).
    assert (X := RInt_comp_lin (V := R_CompleteNormedModule) g 1 (-t0) t0 (Rmin s t) (int_ok g CG _ _)).
    assert (Y : RInt (fun y => g (y - t0)) t0 (Rmin s t) = RInt g 0 (Rmin s t - t0)).
    { refine (eq_trans _ (eq_trans X _)).
      - apply int_same. intro r. unfold scal. cbn. unfold mult. cbn. rewrite !Rmult_1_l. reflexivity.
      - f_equal; ring. }
    rewrite <- Y, int_scal.
    + apply int_same. intro r. rewrite !D. unfold g. replace (s - t0 - (r - t0)) with (s - r) by ring. replace (t - t0 - (r - t0)) with (t - r) by ring. ring.
    + intro r. apply (ex_derive_continuous (fun y => g (y - t0))). unfold g. auto_derive. auto.
Qed.
Print Assumptions C74_constant.

(** *** Examples *)
Section Ex.
Let law := the_law [].
Lemma ex_noise anti n s : source_dw (the_normal []) (the_mvnormal []) (given_dw (the_normal []) (the_mvnormal []) anti INone INone) INone INone (if anti then 2*n else n)%nat [] = Ok s ->
  noise_source law (the_normal []) (the_mvnormal []) anti INone INone (fun _ i j => if Nat.eq_dec i j then 1 else 0) n (if anti then 2*n else n)%nat [] s.
Proof.
  intro HS. split; [apply the_is_law|]. split; [apply the_normal_ok|]. split; [apply the_mvnormal_ok|]. split; [apply the_normal_law|]. split; [intros t v M E; destruct v; discriminate|].
  split; [left; repeat split|]. split; [reflexivity|exact HS].
Qed.
Example C74_ex_source : exists s, source_dw (the_normal []) (the_mvnormal []) (given_dw (the_normal []) (the_mvnormal []) true INone INone) INone INone 4 [] = Ok s.
Proof. eexists. reflexivity. Qed.
(** of four antithetic paths, the first and the third have opposite increments, and the first and the second independent ones;
    those of the two components of a path have the correlation given *)
Example C74_ex_corr c : path_corr true 2 c [0; 0]%nat [0; 2]%nat = - c 0%nat 0%nat /\ path_corr true 2 c [0; 0]%nat [0; 1]%nat = 0 /\ path_corr true 2 c [0; 1]%nat [1; 3]%nat = - c 0%nat 1%nat.
Proof. unfold path_corr, antithetic, half_sign, half_path, entry_corr. cbn. repeat split; ring. Qed.
Lemma ex_varies_const a B e h lo hi : Rabs a <= B -> 0 <= e -> varies (fun _ => a) B e h lo hi.
Proof. intros H He. split; intros; [exact H|]. rewrite Rminus_diag_eq, Rabs_R0; auto. Qed.
Lemma ex_cont_const (a t : R) : continuous (fun _ : R => a) t.
Proof. apply continuous_const. Qed.
Lemma ex_bs (f : R -> R) w : (forall t, continuous f t) -> continuous_array w (fun t => ascalar (f t)).
Proof. intro H. split; [intro t; apply ex_b|]. intros ix _ t. apply H. Qed.
Lemma ex_corr_c anti n w : continuous_corr w (fun _ => path_corr anti n (fun i j => if Nat.eq_dec i j then 1 else 0)).
Proof. intros ix jx _ _ t. apply ex_cont_const. Qed.
Lemma ex_corr_1 ix jx : Rabs (entry_corr (fun i j => if Nat.eq_dec i j then 1 else 0) ix jx) <= 1.
Proof.
  unfold entry_corr. destruct (rev ix) as [|p [|m r]], (rev jx) as [|q [|m' r']]; repeat match goal with |- context [list_eq_dec ?e ?a ?b] => destruct (list_eq_dec e a b) end;
    repeat match goal with |- context [Nat.eq_dec ?a ?b] => destruct (Nat.eq_dec a b) end; rewrite ?Rabs_R0, ?Rabs_R1; lra.
Qed.
Lemma ex_corr_v anti n w e h lo hi : 0 <= e -> corr_varies w (fun _ => path_corr anti n (fun i j => if Nat.eq_dec i j then 1 else 0)) 2 e h lo hi.
Proof.
  intros He ix jx _ _. apply ex_varies_const; [|exact He]. destruct anti; cbn [path_corr].
  - unfold antithetic. rewrite !Rabs_mult. assert (X := ex_corr_1 (half_path n ix) (half_path n jx)). assert (Y : forall kx, Rabs (half_sign n kx) = 1).
    { intro kx. unfold half_sign. destruct (rev kx) as [|p r]; [apply Rabs_R1|]. destruct (Nat.ltb p n); [apply Rabs_R1|]. rewrite Rabs_left; lra. }
    rewrite !Y. lra.
  - eapply Rle_trans; [apply ex_corr_1|lra].
Qed.
Definition ex_2t : dict (M_sde.param R R) := [("mu"%string, PFun (fun t => ascalar (2*t))); ("sigma"%string, PConst (ascalar 1))].
Lemma ex_steps n : (0 < n)%nat -> stepped [0; 1] (pace ex_linspace (StepsScalar (S n)) [0; 1]) 0 1 (1 / INR n) (n + 3) /\ len (pace ex_linspace (StepsScalar (S n)) [0; 1]) = S n.
Proof.
  intro Hn. assert (NP : 1 <= INR n) by (apply (le_INR 1); lia).
  assert (V : valid_timeline [0; 1]) by (split; [discriminate|]; split; repeat constructor; unfold isnum; simpl; try (apply teqb_R_true; auto); try (apply tltb_R_true; lra)).
  assert (EQ : equally_spaced ex_linspace).
  { intros a b m i H1 H2. unfold ex_linspace. rewrite (map_nth_error _ i (seq 0 m) (d := i)); [reflexivity|]. rewrite (nth_error_nth' _ 0%nat) by (rewrite seq_length; auto). rewrite seq_nth by auto. reflexivity. }
  assert (LP : len (pace ex_linspace (StepsScalar (S n)) [0; 1]) = S n).
  { cbn [pace]. unfold ex_linspace. destruct n; [lia|]. cbn [Nat.leb]. rewrite ?map_length, ?seq_length. reflexivity. }
  split; [|exact LP]. split; [exact V|]. split; [reflexivity|]. split; [intros t [<-|[<-|[]]]; lra|]. split; [rewrite LP; cbn; lia|].
  split; [assert (0 < / INR n) by (apply Rinv_0_lt_compat; lra); unfold Rdiv; lra|].
  assert (F := P_euler.C68_fine_steps ex_linspace (S n) [0; 1] 0 EQ ltac:(lia) V eq_refl). cbn [last] in F. replace (S n - 1)%nat with n in F by lia. rewrite Rminus_0_r in F. exact F.
Qed.
Lemma ex_2t_varies w h : 0 <= h -> array_varies w (fun t => ascalar (2*t)) 2 (2*h) h 0 (0 + 1).
Proof.
  intros Hh ix _. change (fun t => bget (ascalar (2*t)) ix) with (fun t => 2*t). split.
  - intros t Ht. rewrite Rabs_pos_eq; lra.
  - intros s t _ _ H. replace (2*s - 2*t) with (2*(s - t)) by ring. rewrite Rabs_mult, Rabs_pos_eq; lra.
Qed.
(** dx = 2t dt + dw from 0, up to time 1 with n equal steps: the mean of cos(x) approaches that of a normal variate of mean 1
    and variance 1, at least as fast as C/n *)
Example C74_ex_wiener : exists C, forall n s, (0 < n)%nat -> source_dw (the_normal []) (the_mvnormal []) GNone INone INone 1 [] = Ok s ->
  let X g := value_at (sde_call Rminus (wiener_process (I := unit) (at_step s) false [] 1 (ascalar 0) ex_2t) 0 (pace ex_linspace (StepsScalar (S n))) (n + 3) (g, tt) [2%nat] [0; 1]) 1 [0%nat] in
  Rabs (law (n + 3) (fun g => cos (X g)) - exp (- (1/2)) * cos 1) <= C / INR n.
Proof.
  destruct (C74_wiener 2 1 ltac:(lra)) as (C & H). set (K := 3 * Rabs C). exists (Rabs 1 * K + exp (1*1/2 * K) * (1*1/2) * K). intros n s Hn HS X.
  destruct (ex_steps n Hn) as [ST LP]. assert (NP : 1 <= INR n) by (apply (le_INR 1); lia).
  assert (H01 : 0 <= 1 / INR n <= 1). { assert (0 < / INR n) by (apply Rinv_0_lt_compat; lra). assert (/ INR n <= 1) by (rewrite <- Rinv_1; apply Rinv_le_contravar; lra). unfold Rdiv. lra. }
  set (h := 1 / INR n) in *.
  destruct (H gen unit law (the_normal []) (the_mvnormal []) false INone INone (fun _ i j => if Nat.eq_dec i j then 1 else 0) 1%nat 1%nat [] s false (ascalar 0) (fun t => ascalar (2*t)) (fun _ => ascalar 1) ex_2t
    (pace ex_linspace (StepsScalar (S n))) (n + 3)%nat tt [0; 1] 0 h (2*h) (n + 3)%nat) as (_ & m & v & GS & HM & _).
  - apply (ex_noise false 1 s HS).
  - exists (PFun (fun t => ascalar (2*t))). split; reflexivity.
  - exists (PConst (ascalar 1)). split; reflexivity.
  - apply ex_b.
  - apply (ex_bs (fun t => 2*t)). intro t. apply (ex_derive_continuous (fun t => 2*t)). auto_derive. auto.
  - apply (ex_bs (fun _ => 1)). intro t. apply ex_cont_const.
  - apply ex_corr_c.
  - apply ex_2t_varies. lra.
  - intros ix _. apply (ex_varies_const 1); [rewrite Rabs_R1; lra|lra].
  - apply ex_corr_v. lra.
  - lra.
  - exact ST.
  - rewrite LP. cbn. lia.
  - destruct (HM 1%nat [0%nat] ltac:(cbn; lia) ltac:(repeat constructor)) as [M1 V1]. specialize (V1 1%nat [0%nat] ltac:(cbn; lia) ltac:(repeat constructor)). cbn [nth] in M1, V1.
    change (fun t => bget (ascalar (2*t)) [0%nat]) with (fun t => 2*t) in M1. change (bget (ascalar 0) [0%nat]) with 0 in M1.
    assert (I2 : RInt (fun t => 2*t) 0 1 = 1).
    { apply is_RInt_unique. replace 1 with (minus (1*1) (0*0)) at 2 by (unfold minus, plus, opp; cbn; ring). apply (is_RInt_derive (fun t => t*t)).
      - intros r _. auto_derive; auto. match goal with |- ?a = ?b => change (@eq R a b) end. ring.
      - intros r _. apply (ex_derive_continuous (fun t => 2*t)). auto_derive. auto. }
    rewrite I2, Rabs_R0 in M1. rewrite Rmin_left in V1 by lra.
    assert (I1 : RInt (fun t => bget (ascalar 1) [0%nat] * bget (ascalar 1) [0%nat] * path_corr false 1 (fun i j => if Nat.eq_dec i j then 1 else 0) [0%nat] [0%nat]) 0 1 = 1).
    { rewrite RInt_const. unfold scal. cbn. unfold mult. cbn. change (bget (ascalar 1) ?ix) with 1. ring. }
    rewrite I1 in V1.
    assert (G1 := gaussian_chf (law (n + 3)) 2 [1%nat] _ _ _ (proj1 (the_is_law []) (n + 3)%nat) GS (1%nat, [0%nat]) 1 (in_entries 2 [1%nat] 1 [0%nat] ltac:(lia) ltac:(repeat constructor))). cbn [fst snd] in G1.
    rewrite <- normal_chf_eq in G1. destruct G1 as [G1 _].
    assert (KP : 0 <= K) by (unfold K; assert (Z := Rabs_pos C); lra). assert (CA := Rle_abs C).
    assert (CC := chf_close 1 (m (1%nat, [0%nat])) 1 (v (1%nat, [0%nat]) (1%nat, [0%nat])) 1 K K h ltac:(lra) H01 KP).
    destruct CC as [CC _]; [eapply Rle_trans; [replace (m (1%nat, [0%nat]) - 1) with (m (1%nat, [0%nat]) - (0 + 1)) by ring; exact M1|unfold K; nra]|eapply Rle_trans; [exact V1|unfold K; nra]|].
    replace (C / INR n) with (C * h) by (unfold h; field; lra).
    match goal with |- _ <= ?a / INR n => replace (a / INR n) with (a * h) by (unfold h; field; lra) end.
    replace (law (n + 3)%nat (fun g => cos (X g))) with (fst (normal_chf (m (1%nat, [0%nat])) (v (1%nat, [0%nat]) (1%nat, [0%nat])) 1)).
    + eapply Rle_trans; [|exact CC]. right. f_equal. f_equal. unfold normal_chf. cbn [fst]. f_equal; f_equal; field.
    + refine (eq_trans (eq_sym G1) _). apply (proj1 (the_is_law [])). intro g. change (value_at _ 1 [0%nat]) with (X g). unfold cexp, cj, Cmult, RtoC. cbn [fst snd].
      replace (0 * X g - 1 * 0) with 0 by ring. rewrite exp_0, Rmult_1_l. f_equal. ring.
Qed.
(** with two antithetic paths, the sum of their values does not depend on the state of the generator *)
Example C74_ex_mirror n s : (0 < n)%nat -> source_dw (the_normal []) (the_mvnormal []) (given_dw (the_normal []) (the_mvnormal []) true INone INone) INone INone 2 [] = Ok s ->
  let X g := value_at (sde_call Rminus (wiener_process (I := unit) (at_step s) false [] 2 (ascalar 0) ex_2t) 0 (pace ex_linspace (StepsScalar (S n))) (n + 3) (g, tt) [2%nat] [0; 1]) 1 in
  forall g g', X g [0%nat] + X g [1%nat] = X g' [0%nat] + X g' [1%nat].
Proof.
  intros Hn HS X g g'. destruct (C74_wiener 2 1 ltac:(lra)) as (C & H). destruct (ex_steps n Hn) as [ST LP]. assert (H0 : 0 <= 1 / INR n) by apply ST.
  destruct (H gen unit law (the_normal []) (the_mvnormal []) true INone INone (fun _ i j => if Nat.eq_dec i j then 1 else 0) 1%nat 2%nat [] s false (ascalar 0) (fun t => ascalar (2*t)) (fun _ => ascalar 1) ex_2t
    (pace ex_linspace (StepsScalar (S n))) (n + 3)%nat tt [0; 1] 0 (1 / INR n) (2*(1 / INR n)) (n + 3)%nat) as (_ & m & v & _ & _ & HM).
  - apply (ex_noise true 1 s HS).
  - exists (PFun (fun t => ascalar (2*t))). split; reflexivity.
  - exists (PConst (ascalar 1)). split; reflexivity.
  - apply ex_b.
  - apply (ex_bs (fun t => 2*t)). intro t. apply (ex_derive_continuous (fun t => 2*t)). auto_derive. auto.
  - apply (ex_bs (fun _ => 1)). intro t. apply ex_cont_const.
  - apply ex_corr_c.
  - apply ex_2t_varies. lra.
  - intros ix _. apply (ex_varies_const 1); [rewrite Rabs_R1; lra|lra].
  - apply ex_corr_v. lra.
  - lra.
  - exact ST.
  - rewrite LP. cbn. lia.
  - assert (Q := fun g => HM eq_refl g 1%nat [] 0%nat ltac:(cbn; lia) ltac:(constructor) ltac:(lia) (fun _ => eq_refl)). cbn [app Nat.add] in Q. exact (eq_trans (Q g) (eq_sym (Q g'))).
Qed.
End Ex.
