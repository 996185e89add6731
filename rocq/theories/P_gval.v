(** C72: the values given by an integration of a Wiener, lognormal, Ornstein-Uhlenbeck or Hull-White process, with the
    source made by the class and the correlations it is given, are jointly Gaussian at all points of the timeline (in the
    logarithm, for the lognormal process): exactly with the means and covariances of the process in the first two
    cases, and within a constant times the longest step of them in the others. *)
From Coq Require Import String List Arith Bool ZArith Reals Lra Lia.
From Coquelicot Require Import Coquelicot.
From Verif Require Import Base BaseOrd BaseNum BaseArr M_paths S_paths S_run L_ord L_paths8
  M_process M_source S_source M_sde S_sde L_sde L_sde2 L_sde3 M_presets S_presets L_presets M_integrate S_integrate P_source4 S_true2 S_euler L_euler L_euler2
  BaseNd BaseIdx L_nd L_pack M_rv S_rv M_analytical S_analytical S_law P_chf L_law L_law2 L_law4 L_law5 L_law8 S_gval L_gval L_gval2 L_gval3 L_gval4 L_gval5 L_gval6.
From Verif Require P_moments P_euler.
Import ListNotations.
Open Scope R_scope.
Local Notation len := List.length.

(** *** grids *)
Lemma mpath_flat gr al v N : mpath gr al 0 v N = v + al * (nth N gr 0 - nth 0 gr 0).
Proof. induction N as [|N IH]; cbn [mpath]; [ring|]. rewrite IH. unfold gap. ring. Qed.
Lemma acov_flat timeline pc t0 gr kk cw b i ix j jx : on_grid timeline pc t0 gr kk -> (i < len timeline)%nat -> (j < len timeline)%nat ->
  acov gr cw (fun _ => 0) b (kk i, ix) (kk j, jx) (len gr - 1) =
  b ix * b jx * cw ix jx * Rmin (nth i timeline 0 - t0) (nth j timeline 0 - t0).
Proof.
  intros (G1 & _ & G3 & G4) Hi Hj. destruct (G4 i Hi) as [K1 E1]. destruct (G4 j Hj) as [K2 E2]. unfold acov. cbn [fst snd].
  set (T := Rmax (nth (kk i) gr 0 - nth 0 gr 0) (nth (kk j) gr 0 - nth 0 gr 0)).
  assert (HG : exists h, 0 <= h /\ forall n, (S n < len gr)%nat -> 0 < gap gr n <= h).
  { clear -G1. assert (X : forall K, exists h, 0 <= h /\ forall n, (n < K)%nat -> gap gr n <= h).
    { induction K as [|K (h & H0 & H)]; [exists 0; split; [lra|intros; lia]|]. exists (Rmax h (gap gr K)). split; [eapply Rle_trans; [exact H0|apply Rmax_l]|].
      intros n Hn. destruct (Nat.eq_dec n K) as [->|NE]; [apply Rmax_r|]. eapply Rle_trans; [apply H; lia|apply Rmax_l]. }
    destruct (X (len gr)) as (h & H0 & H). exists h. split; [exact H0|]. intros n Hn. split; [apply G1; auto|apply H; lia]. }
  destruct HG as (h & Hh & GP).
  assert (CC := cov_close gr h T 0 GP (Rle_refl 0) Hh 0 0 (kk i) (kk j) ltac:(rewrite Rabs_R0; lra) ltac:(rewrite Rabs_R0; lra) K1 K2 (Rmax_l _ _) (Rmax_r _ _)).
  replace (cov_const T 0 * h) with 0 in CC by (unfold cov_const; ring).
  assert (Z := revert_sum_0 0 (nth (kk i) gr 0 - nth 0 gr 0) (nth (kk j) gr 0 - nth 0 gr 0)). rewrite Ropp_0, Rmult_0_l, exp_0, Rmult_1_l in Z.
  rewrite Z, E1, E2, G3 in CC. apply Rabs_le_between in CC.
  replace (rsum _ _) with (Rmin (nth i timeline 0 - t0) (nth j timeline 0 - t0)) by lra. ring.
Qed.
Lemma nth_timeline (timeline : list R) i : (i < len timeline)%nat -> In (nth i timeline 0) timeline.
Proof. apply nth_In. Qed.

(** *** exact laws *)
Section Exact.
Context {G I : Type}.
Variable L : nat -> (G -> R) -> R.
Hypothesis HL : is_law L.
Variables (normal : list nat -> G -> res (arr R) * G) (mvnormal : arr R -> list nat -> G -> res (arr R) * G).
Hypothesis N_ok : normal_ok normal.
Hypothesis M_ok : mvnormal_ok mvnormal.
Variables (vshape : list nat) (paths : nat) (c : nat -> nat -> R).
Let w := (vshape ++ [paths])%list.
Hypothesis N_law : normal_law L normal w.
Hypothesis M_law : forall v M, vshape = (v ++ [M])%list -> mvnormal_law L mvnormal M c (v ++ [paths]).
(** correlations, and the source made by the class *)
Variables (corr rho : input R) (s : src (V := R) (G := G) (arr R)).
Hypothesis HC : correlated corr rho vshape c.
Hypothesis HS : source_dw normal mvnormal GNone corr rho paths vshape = Ok s.
Variables (x0 mu sigma : arr R) (args : dict (M_sde.param R R)).
Hypothesis CM : const_arg args "mu" mu.
Hypothesis CS : const_arg args "sigma" sigma.
Hypothesis BX : broadcasts (shp x0) w.
Hypothesis BM : broadcasts (shp mu) w.
Hypothesis BS : broadcasts (shp sigma) w.
Variables (pace_fn : list R -> list R) (fuel : nat) (gi : bool) (inf : I) (timeline : list R) (t0 : R).
Hypothesis V0 : valid_timeline timeline.
Hypothesis N0 : nth_error timeline 0 = Some t0.
Hypothesis HF : (len timeline + len (pace_fn timeline) <= fuel)%nat.
Let N := len timeline.
Let time (a : nat * list nat) : R := nth (fst a) timeline 0 - t0.
Let cov (a a' : nat * list nat) : R := bget sigma (snd a) * bget sigma (snd a') * entry_corr c (snd a) (snd a') * Rmin (time a) (time a').

Lemma flat_law log sde al d : (N + len (pace_fn timeline) <= d)%nat ->
  drift_noise w sde args (fun t x ix => al ix - 0 * x ix) sigma ->
  let run g := sde_call Rminus (mk_sde (I := I) dw_ids (dw_src (at_step s)) log sde gi vshape paths x0 args) 0 pace_fn fuel (g, inf) [N] timeline in
  (forall g, exists s' xx, run g = Ok (s', xx)) /\
  (log = true -> forall g i ix, (i < N)%nat -> inb w ix -> 0 < value_at (run g) i ix) /\
  gaussian (L d) (entries N w) (fun g a => let v := value_at (run g) (fst a) (snd a) in if log then ln v else v)
    (fun a => (if log then ln (bget x0 (snd a)) else bget x0 (snd a)) + al (snd a) * time a) cov.
Proof using BX HC HF HL HS M_law M_ok N0 N_law N_ok V0.
  intros Hd DN run.
  destruct (one_gaussian (I := I) L HL normal mvnormal N_ok M_ok vshape paths c N_law M_law corr rho s HC HS pace_fn fuel inf timeline t0 V0 N0 HF sde log gi x0 sigma args al (fun _ => 0)
    (proj2 (can_broadcasts _ _) BX) DN d Hd) as (R1 & R2 & gr & kk & OG & R3).
  split; [exact R1|]. split; [exact R2|]. destruct HL as [HE _].
  eapply gaussian_ext; [apply HE|exact R3|reflexivity|..].
  - intros [i ix] Ha. apply in_prod_iff in Ha. destruct Ha as [Hi _]. apply in_seq in Hi. cbn [fst snd]. rewrite mpath_flat. destruct OG as (_ & _ & G3 & G4). destruct (G4 i ltac:(lia)) as [_ E]. rewrite E, G3. reflexivity.
  - intros [i ix] [j jx] Ha Hb. apply in_prod_iff in Ha. apply in_prod_iff in Hb. destruct Ha as [Hi _], Hb as [Hj _]. apply in_seq in Hi. apply in_seq in Hj. cbn [fst snd].
    rewrite (acov_flat timeline (pace_fn timeline) t0 gr kk _ _ i ix j jx OG) by lia. reflexivity.
Qed.

Theorem C72_wiener d : (N + len (pace_fn timeline) <= d)%nat ->
  let run g := sde_call Rminus (wiener_process (I := I) (at_step s) gi vshape paths x0 args) 0 pace_fn fuel (g, inf) [N] timeline in
  (forall g, exists s' xx, run g = Ok (s', xx)) /\
  gaussian (L d) (entries N w) (fun g a => value_at (run g) (fst a) (snd a))
    (fun a => wiener_mean (bget x0 (snd a)) (bget mu (snd a)) (bget sigma (snd a)) (time a)) cov.
Proof using BX BM BS CM CS HC HF HL HS M_law M_ok N0 N_law N_ok V0.
  intro Hd. destruct (flat_law false wiener_sde (bget mu) d Hd (wiener_drift w args mu sigma CM CS BM BS)) as (R1 & _ & R3). split; [exact R1|exact R3].
Qed.
Theorem C72_lognorm d : (N + len (pace_fn timeline) <= d)%nat -> (forall ix, inb w ix -> 0 < bget x0 ix) ->
  let run g := sde_call Rminus (lognorm_process (I := I) (at_step s) gi vshape paths x0 args) 0 pace_fn fuel (g, inf) [N] timeline in
  (forall g, exists s' xx, run g = Ok (s', xx)) /\
  (forall g i ix, (i < N)%nat -> inb w ix -> 0 < value_at (run g) i ix) /\
  gaussian (L d) (entries N w) (fun g a => ln (value_at (run g) (fst a) (snd a)))
    (fun a => ln (bget x0 (snd a)) + (bget mu (snd a) - bget sigma (snd a) * bget sigma (snd a) / 2) * time a) cov.
Proof using BX BM BS CM CS HC HF HL HS M_law M_ok N0 N_law N_ok V0.
  intros Hd _. destruct (flat_law true lognorm_sde (fun ix => bget mu ix - bget sigma ix * bget sigma ix / 2) d Hd (lognorm_drift w args mu sigma CM CS BM BS)) as (R1 & R2 & R3).
  split; [exact R1|]. split; [exact (R2 eq_refl)|exact R3].
Qed.
(** the mean of the product of two values, at different times or of different components, set by their correlation *)
Theorem C72_lognorm_product d i j ti tj ix jx : (N + len (pace_fn timeline) <= d)%nat -> (forall ix, inb w ix -> 0 < bget x0 ix) ->
  (forall m n, c m n = c n m) -> (forall m, c m m = 1) ->
  nth_error timeline i = Some ti -> nth_error timeline j = Some tj -> inb w ix -> inb w jx ->
  let X g := value_at (sde_call Rminus (lognorm_process (I := I) (at_step s) gi vshape paths x0 args) 0 pace_fn fuel (g, inf) [N] timeline) in
  L d (fun g => X g i ix * X g j jx) =
    lognorm_mean (bget x0 ix) (bget mu ix) (bget sigma ix) (ti - t0) * lognorm_mean (bget x0 jx) (bget mu jx) (bget sigma jx) (tj - t0) *
    exp (bget sigma ix * bget sigma jx * entry_corr c ix jx * Rmin (ti - t0) (tj - t0)).
Proof using BX BM BS CM CS HC HF HL HS M_law M_ok N0 N_law N_ok V0.
  intros Hd XP CSY C1 Ni Nj Hix Hjx X. destruct (C72_lognorm d Hd XP) as (_ & RP & RG). fold N in RP, RG.
  assert (LI : (i < N)%nat) by (apply nth_error_Some; rewrite Ni; discriminate). assert (LJ : (j < N)%nat) by (apply nth_error_Some; rewrite Nj; discriminate).
  rewrite (proj1 HL d _ (fun g => exp (1 * ln (X g i ix) + 1 * ln (X g j jx)))).
  2: { intro g. rewrite !Rmult_1_l, exp_plus, !exp_ln by (apply RP; auto). reflexivity. }
  refine (eq_trans (gaussian_exp2 (L d) N w _ _ _ (proj1 HL d) RG (i, ix) (j, jx) 1 1 (in_entries N w i ix LI Hix) (in_entries N w j jx LJ Hjx)) _).
  cbn [fst snd]. unfold cov, time. cbn [fst snd]. rewrite (nth_error_nth _ _ 0 Ni), (nth_error_nth _ _ 0 Nj).
  assert (DIAG : forall kx, entry_corr c kx kx = 1).
  { intro kx. unfold entry_corr. destruct (rev kx) as [|p [|m r]]; try (match goal with |- context [list_eq_dec ?e ?a ?a] => destruct (list_eq_dec e a a) as [_|NE]; [reflexivity|destruct NE; reflexivity] end).
    destruct (list_eq_dec Nat.eq_dec (p :: r) (p :: r)) as [_|NE]; [apply C1|destruct NE; reflexivity]. }
  assert (SYM : entry_corr c jx ix = entry_corr c ix jx).
  { unfold entry_corr. destruct (rev jx) as [|q [|n r']], (rev ix) as [|p [|m r]]; repeat match goal with |- context [list_eq_dec ?e ?a ?b] => destruct (list_eq_dec e a b) end; try congruence; auto. }
  rewrite !DIAG, SYM. rewrite (Rmin_comm (tj - t0)), (Rmin_left (ti - t0) (ti - t0)), (Rmin_left (tj - t0) (tj - t0)) by lra.
  unfold lognorm_mean. rewrite <- (exp_ln (bget x0 ix)) at 2 by auto. rewrite <- (exp_ln (bget x0 jx)) at 2 by auto.
  rewrite <- !exp_plus. f_equal. field.
Qed.
End Exact.
Print Assumptions C72_wiener.
Print Assumptions C72_lognorm.
Print Assumptions C72_lognorm_product.

(** *** mean reverting processes *)
Definition law_const (K T : R) : R := exp (K*T) * (K*K*T) + cov_const T K.
Lemma law_const_pos K T : 0 <= K -> 0 <= T -> 0 <= exp (K*T) * (K*K*T) /\ 0 <= cov_const T K.
Proof.
  intros HK HT. assert (E1 := exp_pos (K*T)). assert (E2 := exp_pos (2*(K*T))). assert (0 <= K*K*T) by (apply Rmult_le_pos; [nra|auto]).
  split; [apply Rmult_le_pos; lra|]. unfold cov_const. apply Rmult_le_pos; auto. apply Rmult_le_pos; lra.
Qed.
Section Close.
Variables (K T h : R) (timeline pc : list R) (t0 : R) (gr : list R) (kk : nat -> nat).
Hypothesis HK : 0 <= K.
Hypothesis HT : forall t, In t timeline -> t <= t0 + T.
Hypothesis Hh : 0 <= h.
Hypothesis FI : fine h timeline pc.
Hypothesis OG : on_grid timeline pc t0 gr kk.
Lemma OG_GP n : (S n < len gr)%nat -> 0 < gap gr n <= h.
Proof using FI OG. destruct OG as (G1 & G2 & _ & _). intro Hn. split; [apply G1; auto|apply G2; auto]. Qed.
Lemma OG_T i : (i < len timeline)%nat -> 0 <= nth (kk i) gr 0 - nth 0 gr 0 <= T /\ nth (kk i) gr 0 - nth 0 gr 0 = nth i timeline 0 - t0.
Proof using FI OG HT.
  intro Hi. destruct OG as (G1 & G2 & G3 & G4). destruct (G4 i Hi) as [K1 E]. assert (U := u_mono gr h OG_GP 0 (kk i) ltac:(lia) K1).
  assert (B := HT _ (nth_timeline timeline i Hi)). rewrite E, G3 in *. lra.
Qed.
Lemma OG_mean k x theta sigma i : Rabs k <= K -> (i < len timeline)%nat ->
  Rabs (mpath gr (k*theta) k x (kk i) - oruh_mean x theta k sigma (nth i timeline 0 - t0)) <= law_const K T * Rabs (x - theta) * h.
Proof using FI OG HT HK Hh.
  intros Hk Hi. destruct (OG_T i Hi) as [[A B] E]. assert (K1 := proj1 (proj2 (proj2 (proj2 OG)) i Hi)).
  assert (M := mean_close gr h K OG_GP HK Hh k x theta Hk (kk i) K1). cbv zeta in M. rewrite E in M, A, B. unfold oruh_mean. eapply Rle_trans; [exact M|].
  set (tau := nth i timeline 0 - t0) in *. destruct (law_const_pos K T HK ltac:(lra)) as [P1 P2]. unfold law_const.
  replace ((exp (K*T) * (K*K*T) + cov_const T K) * Rabs (x - theta) * h) with (Rabs (x - theta) * ((exp (K*T) * (K*K*T) + cov_const T K) * h)) by ring.
  apply Rmult_le_compat_l; [apply Rabs_pos|]. apply Rle_trans with (exp (K*T) * (K*K*T) * h); [|apply Rmult_le_compat_r; lra].
  replace (exp (K*T) * (K*K*T) * h) with (exp (K*T) * (K*K*h*T)) by ring. assert (0 <= K*K*h) by (apply Rmult_le_pos; nra).
  apply Rmult_le_compat; [left; apply exp_pos|apply Rmult_le_pos; lra|apply exp_mono; apply Rmult_le_compat_l; lra|apply Rmult_le_compat_l; lra].
Qed.
Lemma OG_cov cw ka b i ix j jx : Rabs (ka ix) <= K -> Rabs (ka jx) <= K -> (i < len timeline)%nat -> (j < len timeline)%nat ->
  let q := b ix * b jx * cw ix jx in
  Rabs (acov gr cw ka b (kk i, ix) (kk j, jx) (len gr - 1) - q * revert_cov (ka ix) (ka jx) (nth i timeline 0 - t0) (nth j timeline 0 - t0)) <= law_const K T * Rabs q * h.
Proof using FI OG HT HK Hh.
  intros H1 H2 Hi Hj q. destruct (OG_T i Hi) as [[A B] E]. destruct (OG_T j Hj) as [[A' B'] E']. assert (P4 := proj2 (proj2 (proj2 OG))).
  assert (CC := cov_close gr h T K OG_GP HK Hh (ka ix) (ka jx) (kk i) (kk j) H1 H2 (proj1 (P4 i Hi)) (proj1 (P4 j Hj)) B B'). rewrite E, E' in CC.
  unfold acov. cbn [fst snd]. fold q. set (S0 := rsum _ _) in *. set (R0 := revert_cov _ _ _ _) in *. replace (S0 * q - q * R0) with (q * (S0 - R0)) by ring. rewrite Rabs_mult.
  destruct (law_const_pos K T HK ltac:(lra)) as [P1 P2]. unfold law_const.
  replace ((exp (K*T) * (K*K*T) + cov_const T K) * Rabs q * h) with (Rabs q * ((exp (K*T) * (K*K*T) + cov_const T K) * h)) by ring.
  apply Rmult_le_compat_l; [apply Rabs_pos|]. eapply Rle_trans; [exact CC|]. apply Rmult_le_compat_r; lra.
Qed.
End Close.

(** Values are jointly Gaussian, with means and covariances within a constant times h of those of the process.
    The constant only depends on the largest k, and on the length T of the timeline. *)
Theorem C72_oruh (K T : R) : 0 <= K -> exists C, forall (G I : Type) (L : nat -> (G -> R) -> R)
    (normal : list nat -> G -> res (arr R) * G) (mvnormal : arr R -> list nat -> G -> res (arr R) * G) vshape paths c corr rho s
    gi (x0 theta k sigma : arr R) args pace_fn fuel (inf : I) (timeline : list R) t0 h d,
  let w := (vshape ++ [paths])%list in let N := len timeline in
  is_law L -> normal_ok normal -> mvnormal_ok mvnormal -> normal_law L normal w ->
  (forall v M, vshape = (v ++ [M])%list -> mvnormal_law L mvnormal M c (v ++ [paths])) ->
  correlated corr rho vshape c -> source_dw normal mvnormal GNone corr rho paths vshape = Ok s ->
  const_arg args "theta" theta -> const_arg args "k" k -> const_arg args "sigma" sigma ->
  broadcasts (shp x0) w -> broadcasts (shp theta) w -> broadcasts (shp k) w -> broadcasts (shp sigma) w ->
  (forall ix, inb w ix -> Rabs (bget k ix) <= K) ->
  valid_timeline timeline -> nth_error timeline 0 = Some t0 -> (forall t, In t timeline -> t <= t0 + T) ->
  (N + len (pace_fn timeline) <= fuel)%nat -> (N + len (pace_fn timeline) <= d)%nat -> 0 <= h -> fine h timeline (pace_fn timeline) ->
  let run g := sde_call Rminus (ou_process (I := I) (at_step s) gi vshape paths x0 args) 0 pace_fn fuel (g, inf) [N] timeline in
  (forall g, exists s' xx, run g = Ok (s', xx)) /\
  exists m v, gaussian (L d) (entries N w) (fun g a => value_at (run g) (fst a) (snd a)) m v /\
    forall i ix, (i < N)%nat -> inb w ix ->
      Rabs (m (i, ix) - oruh_mean (bget x0 ix) (bget theta ix) (bget k ix) (bget sigma ix) (nth i timeline 0 - t0)) <= C * Rabs (bget x0 ix - bget theta ix) * h /\
      forall j jx, (j < N)%nat -> inb w jx ->
        let q := bget sigma ix * bget sigma jx * entry_corr c ix jx in
        Rabs (v (i, ix) (j, jx) - q * revert_cov (bget k ix) (bget k jx) (nth i timeline 0 - t0) (nth j timeline 0 - t0)) <= C * Rabs q * h.
Proof.
  intro HK. exists (law_const K T). intros G I L normal mvnormal vshape paths c corr rho s gi x0 theta k sigma args pace_fn fuel inf timeline t0 h d w N
    HL N_ok M_ok N_law M_law HC HS CT CK CS BX BT BK BS KB V0 N0 HT HF Hd Hh FI run.
  destruct (one_gaussian (I := I) L HL normal mvnormal N_ok M_ok vshape paths c N_law M_law corr rho s HC HS pace_fn fuel inf timeline t0 V0 N0 HF ou_sde false gi x0 sigma args
    (fun ix => bget k ix * bget theta ix) (bget k) (proj2 (can_broadcasts _ _) BX) (ou_drift w args theta k sigma CT CK CS BT BK BS) d Hd) as (R1 & _ & gr & kk & OG & R3).
  split; [exact R1|]. eexists _, _. split; [exact R3|]. intros i ix Hi HI. cbn [fst snd]. split.
  - apply (OG_mean K T h timeline (pace_fn timeline) t0 gr kk HK HT Hh FI OG); auto.
  - intros j jx Hj HJ. cbv zeta. cbn [fst snd]. apply (OG_cov K T h timeline (pace_fn timeline) t0 gr kk HK HT Hh FI OG (entry_corr c) (bget k) (bget sigma)); auto.
Qed.
Print Assumptions C72_oruh.

(** Hull-White process: the sum of the values of F factors *)
Lemma rsum_close {A} (f f' b : A -> R) C l : (forall a, In a l -> Rabs (f a - f' a) <= C * b a) -> Rabs (rsum f l - rsum f' l) <= C * rsum b l.
Proof.
  unfold rsum. induction l as [|a l IH]; intro H; cbn [map fold_right]; [replace (0 - 0) with 0 by ring; rewrite Rabs_R0; lra|].
  set (x := fold_right Rplus 0 (map f l)) in *. set (y := fold_right Rplus 0 (map f' l)) in *.
  replace (f a + x - (f' a + y)) with ((f a - f' a) + (x - y)) by ring. eapply Rle_trans; [apply Rabs_triang|].
  assert (H1 := H a (or_introl eq_refl)). assert (H2 := IH (fun a' Ha => H a' (or_intror Ha))). lra.
Qed.
Lemma inb_ins2 v F n ix f : inb (v ++ [n]) ix -> (f < F)%nat -> inb (v ++ [F; n]) (ins2 f ix).
Proof.
  intros H Hf. apply inb_snoc in H. destruct H as (a & b & -> & Ha & Hb). rewrite ins2_snoc. apply Forall2_app; [exact Ha|]. repeat constructor; auto.
Qed.
Theorem C72_hull_white (K T : R) : 0 <= K -> exists C, forall (G I : Type) (L : nat -> (G -> R) -> R)
    (normal : list nat -> G -> res (arr R) * G) (mvnormal : arr R -> list nat -> G -> res (arr R) * G) vshape F paths c corr rho s
    gi (x0 theta k sigma : arr R) args pace_fn fuel (inf : I) (timeline : list R) t0 h d,
  let w := (vshape ++ [F; paths])%list in let out := (vshape ++ [paths])%list in let N := len timeline in
  is_law L -> normal_ok normal -> mvnormal_ok mvnormal -> normal_law L normal w -> mvnormal_law L mvnormal F c out ->
  correlated corr rho (vshape ++ [F]) c -> source_dw normal mvnormal GNone corr rho paths (vshape ++ [F]) = Ok s ->
  const_arg args "theta" theta -> const_arg args "k" k -> const_arg args "sigma" sigma ->
  broadcasts (shp x0) w -> broadcasts (shp theta) w -> broadcasts (shp k) w -> broadcasts (shp sigma) w ->
  (forall ix, inb w ix -> Rabs (bget k ix) <= K) ->
  valid_timeline timeline -> nth_error timeline 0 = Some t0 -> (forall t, In t timeline -> t <= t0 + T) ->
  (N + len (pace_fn timeline) <= fuel)%nat -> (N + len (pace_fn timeline) <= d)%nat -> 0 <= h -> fine h timeline (pace_fn timeline) ->
  let run g := sde_call Rminus (hull_white_process (I := I) (at_step s) gi vshape F paths x0 args) 0 pace_fn fuel (g, inf) [N] timeline in
  let sumf (e : nat -> R) := rsum e (seq 0 F) in
  let q f f' ix jx := bget sigma (ins2 f ix) * bget sigma (ins2 f' jx) * entry_corr c (ins2 f ix) (ins2 f' jx) in
  (forall g, exists s' xx, run g = Ok (s', xx)) /\
  exists m v, gaussian (L d) (entries N out) (fun g a => value_at (run g) (fst a) (snd a)) m v /\
    forall i ix, (i < N)%nat -> inb out ix ->
      Rabs (m (i, ix) - sumf (fun f => let fx := ins2 f ix in oruh_mean (bget x0 fx) (bget theta fx) (bget k fx) (bget sigma fx) (nth i timeline 0 - t0)))
        <= C * h * sumf (fun f => Rabs (bget x0 (ins2 f ix) - bget theta (ins2 f ix))) /\
      forall j jx, (j < N)%nat -> inb out jx ->
        Rabs (v (i, ix) (j, jx) - sumf (fun f => sumf (fun f' => q f f' ix jx * revert_cov (bget k (ins2 f ix)) (bget k (ins2 f' jx)) (nth i timeline 0 - t0) (nth j timeline 0 - t0))))
          <= C * h * sumf (fun f => sumf (fun f' => Rabs (q f f' ix jx))).
Proof.
  intro HK. exists (law_const K T). intros G I L normal mvnormal vshape F paths c corr rho s gi x0 theta k sigma args pace_fn fuel inf timeline t0 h d w out N
    HL N_ok M_ok N_law M_law HC HS CT CK CS BX BT BK BS KB V0 N0 HT HF Hd Hh FI run sumf q.
  assert (W : ((vshape ++ [F]) ++ [paths])%list = w) by (unfold w; rewrite <- app_assoc; reflexivity).
  assert (M_law' : forall v M, (vshape ++ [F])%list = (v ++ [M])%list -> mvnormal_law L mvnormal M c (v ++ [paths])).
  { intros v M E. apply app_inj_tail in E. destruct E as [<- <-]. exact M_law. }
  destruct (hw_gaussian (I := I) L HL normal mvnormal N_ok M_ok (vshape ++ [F]) paths c ltac:(rewrite W; exact N_law) M_law' corr rho s HC HS pace_fn fuel inf timeline t0 V0 N0 HF vshape F eq_refl gi x0 args
    ltac:(rewrite W; apply can_broadcasts; exact BX) sigma (fun ix => bget k ix * bget theta ix) (bget k) ltac:(rewrite W; exact (ou_drift w args theta k sigma CT CK CS BT BK BS)) d Hd) as (R1 & gr & kk & OG & R3).
  split; [exact R1|]. eexists _, _. split; [exact R3|]. intros i ix Hi HI. cbn [fst snd]. split.
  - unfold sumf. apply rsum_close. intros f Hf. apply in_seq in Hf. cbv zeta.
    replace (law_const K T * h * Rabs (bget x0 (ins2 f ix) - bget theta (ins2 f ix))) with (law_const K T * Rabs (bget x0 (ins2 f ix) - bget theta (ins2 f ix)) * h) by ring.
    apply (OG_mean K T h timeline (pace_fn timeline) t0 gr kk HK HT Hh FI OG); auto. apply KB. apply inb_ins2; auto. lia.
  - intros j jx Hj HJ. cbn [fst snd]. unfold sumf. apply rsum_close. intros f Hf. apply in_seq in Hf. apply rsum_close. intros f' Hf'. apply in_seq in Hf'.
    replace (law_const K T * h * Rabs (q f f' ix jx)) with (law_const K T * Rabs (q f f' ix jx) * h) by ring.
    apply (OG_cov K T h timeline (pace_fn timeline) t0 gr kk HK HT Hh FI OG (entry_corr c) (bget k) (bget sigma)); auto; apply KB; apply inb_ins2; auto; lia.
Qed.
Print Assumptions C72_hull_white.

(** *** the covariances that are approached *)
Theorem C72_cov_closed k1 k2 s t :
  (k1 + k2 <> 0 -> revert_cov k1 k2 s t = (exp (-k1*(s - Rmin s t)) * exp (-k2*(t - Rmin s t)) - exp (-k1*s) * exp (-k2*t)) / (k1 + k2)) /\
  (k1 + k2 = 0 -> revert_cov k1 k2 s t = exp (-k1*(s - t)) * Rmin s t) /\
  revert_cov k1 k2 s t = revert_cov k2 k1 t s.
Proof.
  split; [apply revert_closed|]. split; [|apply revert_sym]. intro K. replace k2 with (- k1) by lra. apply revert_sum_0.
Qed.
(** they give oruh_var, and hw2f_var if there are two factors *)
Theorem C72_variances x theta k sigma k1 k2 s1 s2 rho t : k <> 0 -> k1 <> 0 -> k2 <> 0 -> k1 + k2 <> 0 ->
  sigma * sigma * revert_cov k k t t = oruh_var x theta k sigma t /\
  s1*s1 * revert_cov k1 k1 t t + s1*s2*rho * revert_cov k1 k2 t t + (s2*s1*rho * revert_cov k2 k1 t t + s2*s2 * revert_cov k2 k2 t t) = hw2f_var1 k1 k2 s1 s2 rho t.
Proof.
  intros H H1 H2 H3. split; [apply revert_oruh; auto|]. rewrite (revert_sym k2 k1), !revert_var, revert_cross by auto. unfold hw2f_var1. field. auto.
Qed.
Print Assumptions C72_cov_closed.
Print Assumptions C72_variances.

(** *** characteristic functions *)
Lemma sin_lip x y : Rabs (cos x - cos y) <= Rabs (x - y) /\ Rabs (sin x - sin y) <= Rabs (x - y).
Proof.
  split.
  - destruct (MVT_abs cos (fun z => - sin z) y x) as (z & E & _); [intros; apply derivable_pt_lim_cos|]. rewrite E, Rabs_Ropp.
    rewrite <- (Rmult_1_l (Rabs (x - y))) at 2. apply Rmult_le_compat_r; [apply Rabs_pos|]. apply Rabs_le. apply SIN_bound.
  - destruct (MVT_abs sin cos y x) as (z & E & _); [intros; apply derivable_pt_lim_sin|]. rewrite E.
    rewrite <- (Rmult_1_l (Rabs (x - y))) at 2. apply Rmult_le_compat_r; [apply Rabs_pos|]. apply Rabs_le. apply COS_bound.
Qed.
Lemma normal_chf_eq m v u : normal_chf m v u = cexp (cj u * RtoC m - RtoC (u*u/2 * v))%C.
Proof. unfold normal_chf, cexp, cj, Cminus, Cmult, Cplus, Copp, RtoC. cbn [fst snd]. do 2 f_equal; f_equal; ring. Qed.
Lemma chf_close u m m' v v' M V h : 0 <= v' -> 0 <= h <= 1 -> 0 <= V -> Rabs (m - m') <= M * h -> Rabs (v - v') <= V * h ->
  close (normal_chf m v u) (normal_chf m' v' u) ((Rabs u * M + exp (u*u/2 * V) * (u*u/2) * V) * h).
Proof.
  intros Hv Hh HV HM HVh.
  assert (UU : 0 <= u*u/2) by (assert (X := Rle_0_sqr u); unfold Rsqr in X; lra).
  assert (AV : Rabs (u*u/2*v - u*u/2*v') <= u*u/2 * V * h).
  { replace (u*u/2*v - u*u/2*v') with (u*u/2*(v - v')) by ring. rewrite Rabs_mult, (Rabs_pos_eq (u*u/2)), Rmult_assoc by auto. apply Rmult_le_compat_l; auto. }
  assert (A' : 0 <= u*u/2*v') by (apply Rmult_le_pos; auto).
  assert (E1 : exp (- (u*u/2*v')) <= 1) by (rewrite <- exp_0; apply exp_mono; lra).
  assert (DE : Rabs (exp (- (u*u/2*v)) - exp (- (u*u/2*v'))) <= exp (u*u/2*V) * (u*u/2) * V * h).
  { replace (exp (- (u*u/2*v))) with (exp (- (u*u/2*v')) * exp (- (u*u/2*v - u*u/2*v'))) by (rewrite <- exp_plus; f_equal; ring).
    replace (_ * exp _ - _) with (exp (- (u*u/2*v')) * (exp (- (u*u/2*v - u*u/2*v')) - 1)) by ring. rewrite Rabs_mult, abs_exp.
    assert (B : Rabs (- (u*u/2*v - u*u/2*v')) <= u*u/2*V).
    { rewrite Rabs_Ropp. eapply Rle_trans; [exact AV|]. rewrite <- (Rmult_1_r (u*u/2*V)) at 2. apply Rmult_le_compat_l; [apply Rmult_le_pos; auto|lra]. }
    assert (L := exp_lip _ _ B). rewrite <- (Rmult_1_l (exp (u*u/2*V) * (u*u/2) * V * h)). apply Rmult_le_compat; [left; apply exp_pos|apply Rabs_pos|exact E1|].
    eapply Rle_trans; [exact L|]. rewrite !Rmult_assoc. apply Rmult_le_compat_l; [left; apply exp_pos|]. rewrite Rabs_Ropp, <- !Rmult_assoc. exact AV. }
  assert (DT : Rabs (u*m - u*m') <= Rabs u * M * h).
  { replace (u*m - u*m') with (u*(m - m')) by ring. rewrite Rabs_mult, Rmult_assoc. apply Rmult_le_compat_l; [apply Rabs_pos|auto]. }
  destruct (sin_lip (u*m) (u*m')) as [S1 S2].
  assert (Z : forall c c', Rabs c <= 1 -> Rabs (c - c') <= Rabs (u*m - u*m') ->
    Rabs (exp (- (u*u/2*v)) * c - exp (- (u*u/2*v')) * c') <= (Rabs u * M + exp (u*u/2*V) * (u*u/2) * V) * h).
  { intros c c' H1 H2. replace (_ * c - _ * c') with ((exp (- (u*u/2*v)) - exp (- (u*u/2*v'))) * c + exp (- (u*u/2*v')) * (c - c')) by ring.
    eapply Rle_trans; [apply Rabs_triang|]. rewrite !Rabs_mult, abs_exp.
    assert (X1 : Rabs (exp (- (u*u/2*v)) - exp (- (u*u/2*v'))) * Rabs c <= exp (u*u/2*V) * (u*u/2) * V * h * 1) by (apply Rmult_le_compat; auto; apply Rabs_pos).
    assert (X2 : exp (- (u*u/2*v')) * Rabs (c - c') <= 1 * (Rabs u * M * h)).
    { apply Rmult_le_compat; [left; apply exp_pos|apply Rabs_pos|auto|]. eapply Rle_trans; eauto. }
    lra. }
  unfold normal_chf. split; cbn [fst snd]; apply Z; auto; apply Rabs_le; [apply COS_bound|apply SIN_bound].
Qed.
Lemma revert_pos k t : 0 <= t -> 0 <= revert_cov k k t t.
Proof.
  intro Ht. unfold revert_cov. apply RInt_ge_0; [rewrite Rmin_left; lra|apply f_int|]. intros r _. apply Rmult_le_pos; left; apply exp_pos.
Qed.
Lemma corr_diag c ix : (forall m, c m m = 1) -> entry_corr c ix ix = 1.
Proof.
  intro C1. unfold entry_corr. destruct (rev ix) as [|p [|m r]]; try (match goal with |- context [list_eq_dec ?e ?a ?a] => destruct (list_eq_dec e a a) as [_|NE]; [reflexivity|destruct NE; reflexivity] end).
  destruct (list_eq_dec Nat.eq_dec (p :: r) (p :: r)) as [_|NE]; [apply C1|destruct NE; reflexivity].
Qed.
(** that of each value is within a constant times h of that of the process *)
Theorem C72_oruh_chf (x th ka sg T u : R) : exists C, forall (G I : Type) (L : nat -> (G -> R) -> R)
    (normal : list nat -> G -> res (arr R) * G) (mvnormal : arr R -> list nat -> G -> res (arr R) * G) vshape paths c corr rho s
    gi (x0 theta k sigma : arr R) args pace_fn fuel (inf : I) (timeline : list R) t0 h d i ti ix,
  let w := (vshape ++ [paths])%list in let N := len timeline in
  is_law L -> normal_ok normal -> mvnormal_ok mvnormal -> normal_law L normal w ->
  (forall v M, vshape = (v ++ [M])%list -> mvnormal_law L mvnormal M c (v ++ [paths])) ->
  correlated corr rho vshape c -> (forall m, c m m = 1) -> source_dw normal mvnormal GNone corr rho paths vshape = Ok s ->
  const_arg args "theta" theta -> const_arg args "k" k -> const_arg args "sigma" sigma ->
  broadcasts (shp x0) w -> broadcasts (shp theta) w -> broadcasts (shp k) w -> broadcasts (shp sigma) w ->
  valid_timeline timeline -> nth_error timeline 0 = Some t0 -> (forall t, In t timeline -> t <= t0 + T) ->
  (N + len (pace_fn timeline) <= fuel)%nat -> (N + len (pace_fn timeline) <= d)%nat -> 0 <= h <= 1 -> fine h timeline (pace_fn timeline) ->
  nth_error timeline i = Some ti -> inb w ix -> bget x0 ix = x -> bget theta ix = th -> bget k ix = ka -> bget sigma ix = sg ->
  let run g := sde_call Rminus (ou_process (I := I) (at_step s) gi vshape paths x0 args) 0 pace_fn fuel (g, inf) [N] timeline in
  exists z, has_mean (L d) (fun g => cexp (cj u * RtoC (value_at (run g) i ix))%C) z /\
    close z (normal_chf (oruh_mean x th ka sg (ti - t0)) (sg*sg*revert_cov ka ka (ti - t0) (ti - t0)) u) (C * h).
Proof.
  set (C0 := law_const (Rabs ka) T). exists (Rabs u * (C0 * Rabs (x - th)) + exp (u*u/2 * (C0 * Rabs (sg*sg*1))) * (u*u/2) * (C0 * Rabs (sg*sg*1))).
  intros G I L normal mvnormal vshape paths c corr rho s gi x0 theta k sigma args pace_fn fuel inf timeline t0 h d i ti ix w N
    HL N_ok M_ok N_law M_law HC C1 HS CT CK CS BX BT BK BS V0 N0 HT HF Hd Hh FI Ni HI EX ET EK ES run.
  destruct (one_gaussian (I := I) L HL normal mvnormal N_ok M_ok vshape paths c N_law M_law corr rho s HC HS pace_fn fuel inf timeline t0 V0 N0 HF ou_sde false gi x0 sigma args
    (fun ix => bget k ix * bget theta ix) (bget k) (proj2 (can_broadcasts _ _) BX) (ou_drift w args theta k sigma CT CK CS BT BK BS) d Hd) as (_ & _ & gr & kk & OG & R3).
  assert (LI : (i < len timeline)%nat) by (apply nth_error_Some; rewrite Ni; discriminate).
  assert (X := gaussian_chf (L d) N w _ _ _ (proj1 HL d) R3 (i, ix) u (in_entries N w i ix LI HI)). cbn [fst snd] in X.
  rewrite <- normal_chf_eq in X. eexists. split; [exact X|].
  assert (HK := Rabs_pos ka). assert (M := OG_mean (Rabs ka) T h timeline (pace_fn timeline) t0 gr kk HK HT (proj1 Hh) FI OG (bget k ix) (bget x0 ix) (bget theta ix) sg i ltac:(rewrite EK; lra) LI).
  assert (V := OG_cov (Rabs ka) T h timeline (pace_fn timeline) t0 gr kk HK HT (proj1 Hh) FI OG (entry_corr c) (bget k) (bget sigma) i ix i ix ltac:(rewrite EK; lra) ltac:(rewrite EK; lra) LI LI). cbv zeta in V.
  destruct (OG_T T h timeline (pace_fn timeline) t0 gr kk HT FI OG i LI) as [[A B] E].
  assert (TP : 0 <= ti - t0 <= T) by (rewrite E, (nth_error_nth _ _ 0 Ni) in *; lra).
  rewrite (corr_diag c ix C1), (nth_error_nth _ _ 0 Ni), EK, ES in V. rewrite (nth_error_nth _ _ 0 Ni), EX, ET, EK in M. rewrite EX, ET, EK.
  destruct (law_const_pos (Rabs ka) T HK ltac:(lra)) as [P1 P2]. assert (CP : 0 <= C0) by (unfold C0, law_const; lra).
  apply chf_close; auto.
  - apply Rmult_le_pos; [apply Rle_0_sqr|apply revert_pos; lra].
  - apply Rmult_le_pos; [auto|apply Rabs_pos].
  - replace (sg*sg*revert_cov ka ka (ti - t0) (ti - t0)) with (sg*sg*1*revert_cov ka ka (ti - t0) (ti - t0)) by ring. exact V.
Qed.
Print Assumptions C72_oruh_chf.

(** Hull-White process with two factors, of correlation rho: those with mean hw2f_mean and variance hw2f_var are approached *)
Theorem C72_hw2f_chf (x1 x2 th1 th2 k1 k2 s1 s2 r T u : R) : k1 <> 0 -> k2 <> 0 -> k1 + k2 <> 0 -> -1 <= r <= 1 ->
  exists C, forall (G I : Type) (L : nat -> (G -> R) -> R)
    (normal : list nat -> G -> res (arr R) * G) (mvnormal : arr R -> list nat -> G -> res (arr R) * G) vshape paths rho s
    gi (x0 theta k sigma : arr R) args pace_fn fuel (inf : I) (timeline : list R) t0 h d i ti ix,
  let w := (vshape ++ [2%nat; paths])%list in let out := (vshape ++ [paths])%list in let N := len timeline in
  is_law L -> normal_ok normal -> mvnormal_ok mvnormal -> normal_law L normal w ->
  mvnormal_law L mvnormal 2 (fun i j => if Nat.eq_dec i j then 1 else r) out ->
  is_vector 1 rho -> rho_at rho 0 = r -> source_dw normal mvnormal GNone INone (IArr rho) paths (vshape ++ [2%nat]) = Ok s ->
  const_arg args "theta" theta -> const_arg args "k" k -> const_arg args "sigma" sigma ->
  broadcasts (shp x0) w -> broadcasts (shp theta) w -> broadcasts (shp k) w -> broadcasts (shp sigma) w ->
  (forall jx, inb w jx -> Rabs (bget k jx) <= Rmax (Rabs k1) (Rabs k2)) ->
  valid_timeline timeline -> nth_error timeline 0 = Some t0 -> (forall t, In t timeline -> t <= t0 + T) ->
  (N + len (pace_fn timeline) <= fuel)%nat -> (N + len (pace_fn timeline) <= d)%nat -> 0 <= h <= 1 -> fine h timeline (pace_fn timeline) ->
  nth_error timeline i = Some ti -> inb out ix ->
  bget x0 (ins2 0 ix) = x1 -> bget theta (ins2 0 ix) = th1 -> bget k (ins2 0 ix) = k1 -> bget sigma (ins2 0 ix) = s1 ->
  bget x0 (ins2 1 ix) = x2 -> bget theta (ins2 1 ix) = th2 -> bget k (ins2 1 ix) = k2 -> bget sigma (ins2 1 ix) = s2 ->
  let run g := sde_call Rminus (hull_white_process (I := I) (at_step s) gi vshape 2 paths x0 args) 0 pace_fn fuel (g, inf) [N] timeline in
  exists z, has_mean (L d) (fun g => cexp (cj u * RtoC (value_at (run g) i ix))%C) z /\
    close z (normal_chf (hw2f_mean1 x1 x2 th1 th2 k1 k2 (ti - t0)) (hw2f_var1 k1 k2 s1 s2 r (ti - t0)) u) (C * h).
Proof.
  intros K1 K2 K12 HR. set (K := Rmax (Rabs k1) (Rabs k2)). assert (HK : 0 <= K) by (eapply Rle_trans; [apply (Rabs_pos k1)|apply Rmax_l]).
  destruct (C72_hull_white K T HK) as (C0 & HW). set (C1 := Rabs C0).
  set (MB := C1 * (Rabs (x1 - th1) + Rabs (x2 - th2))). set (VB := C1 * (Rabs (s1*s1*1) + Rabs (s1*s2*r) + (Rabs (s2*s1*r) + Rabs (s2*s2*1)))).
  exists (Rabs u * MB + exp (u*u/2 * VB) * (u*u/2) * VB).
  intros G I L normal mvnormal vshape paths rho s gi x0 theta k sigma args pace_fn fuel inf timeline t0 h d i ti ix w out N
    HL N_ok M_ok N_law M_law VR ER HS CT CK CS BX BT BK BS KB V0 N0 HT HF Hd Hh FI Ni HI EX1 ET1 EK1 ES1 EX2 ET2 EK2 ES2 run.
  set (c := fun i j : nat => if Nat.eq_dec i j then 1 else r) in *.
  assert (HC : correlated INone (IArr rho) (vshape ++ [2%nat]) c).
  { right. right. exists rho, vshape, 1%nat. repeat split; auto. intros a b Ha Hb. unfold c. rewrite <- ER.
    destruct a as [|[|a]], b as [|[|b]]; try lia; reflexivity. }
  destruct (HW G I L normal mvnormal vshape 2%nat paths c INone (IArr rho) s gi x0 theta k sigma args pace_fn fuel inf timeline t0 h d) as (_ & m & v & GS & HB); auto; [tauto|].
  assert (LI : (i < N)%nat) by (apply nth_error_Some; rewrite Ni; discriminate).
  exists (normal_chf (m (i, ix)) (v (i, ix) (i, ix)) u). rewrite normal_chf_eq at 1. split; [exact (gaussian_chf (L d) N out _ _ _ (proj1 HL d) GS (i, ix) u (in_entries N out i ix LI HI))|].
  destruct (HB i ix LI HI) as [HM HV]. specialize (HV i ix LI HI). rewrite (nth_error_nth _ _ 0 Ni) in HM, HV.
  assert (EC : forall f f', entry_corr c (ins2 f ix) (ins2 f' ix) = c f f').
  { intros f f'. apply inb_snoc in HI. destruct HI as (a & b & -> & _ & _). rewrite !ins2_snoc. unfold entry_corr. rewrite !rev_app_distr. cbn [rev app].
    destruct (list_eq_dec Nat.eq_dec (b :: rev a) (b :: rev a)) as [_|NE]; [reflexivity|destruct NE; reflexivity]. }
  assert (TP : 0 <= ti - t0).
  { assert (S0 := proj2 (proj2 V0)). destruct timeline as [|a tl]; [discriminate|]. injection N0 as ->. destruct i as [|i]; [injection Ni as ->; lra|].
    cbn [nth_error] in Ni. apply nth_error_In in Ni. inversion S0 as [|? ? ? F0]; subst. rewrite Forall_forall in F0. apply F0, before_R in Ni. simpl in Ni. lra. }
  unfold rsum in HM, HV. cbn [seq map fold_right] in HM, HV. rewrite !EC in HV. unfold c in HV. cbn [Nat.eq_dec] in HV.
  destruct (Nat.eq_dec 0 0); [|lia]. destruct (Nat.eq_dec 1 1); [|lia]. destruct (Nat.eq_dec 0 1); [lia|]. destruct (Nat.eq_dec 1 0); [lia|].
  rewrite EX1, EX2, ET1, ET2, EK1, EK2, ES1, ES2 in *.
  assert (C01 : C0 <= C1) by apply Rle_abs. assert (C1P : 0 <= C1) by apply Rabs_pos.
  assert (AB : 0 <= Rabs (s1*s1*1) /\ 0 <= Rabs (s1*s2*r) /\ 0 <= Rabs (s2*s1*r) /\ 0 <= Rabs (s2*s2*1)) by (repeat split; apply Rabs_pos).
  apply chf_close; auto.
  - apply P_moments.C58_nonneg; auto.
  - unfold VB. apply Rmult_le_pos; lra.
  - replace (hw2f_mean1 x1 x2 th1 th2 k1 k2 (ti - t0)) with (oruh_mean x1 th1 k1 s1 (ti - t0) + (oruh_mean x2 th2 k2 s2 (ti - t0) + 0)) by (unfold hw2f_mean1, oruh_mean; ring).
    eapply Rle_trans; [exact HM|]. unfold MB. assert (P1 := Rabs_pos (x1 - th1)). assert (P2 := Rabs_pos (x2 - th2)).
    replace (C1 * (Rabs (x1 - th1) + Rabs (x2 - th2)) * h) with (C1 * h * (Rabs (x1 - th1) + (Rabs (x2 - th2) + 0))) by ring. apply Rmult_le_compat_r; [lra|]. apply Rmult_le_compat_r; lra.
  - rewrite <- (proj2 (C72_variances 0 0 k1 s1 k1 k2 s1 s2 r (ti - t0) K1 K1 K2 K12)).
    match type of HV with Rabs (?a - ?b) <= _ => replace (Rabs (a - _)) with (Rabs (a - b)) by (f_equal; f_equal; ring) end.
    eapply Rle_trans; [exact HV|]. unfold VB.
    replace (C1 * (Rabs (s1*s1*1) + Rabs (s1*s2*r) + (Rabs (s2*s1*r) + Rabs (s2*s2*1))) * h) with (C1 * h * ((Rabs (s1*s1*1) + (Rabs (s1*s2*r) + 0)) + ((Rabs (s2*s1*r) + (Rabs (s2*s2*1) + 0)) + 0))) by ring.
    apply Rmult_le_compat_r; [lra|]. apply Rmult_le_compat_r; lra.
Qed.
Print Assumptions C72_hw2f_chf.

(** *** Examples: the generator of L_law8, with draws of two correlated variates *)
Section Ex.
Definition ex_times : list R := [0; 1; 2].
Definition ex_c (m n : nat) : R := if Nat.eq_dec m n then 1 else 1/2.
Definition ex_corr : arr R := mkArr [2; 2]%nat (fun ix => match ix with [m; n] => ex_c m n | _ => 0 end).
Definition ex_args : dict (M_sde.param R R) := [("mu"%string, PConst (ascalar 0)); ("sigma"%string, PConst (ascalar 1))].
Lemma ex_valid : valid_timeline ex_times.
Proof. split; [discriminate|]. split; repeat constructor; unfold isnum; simpl; try (apply teqb_R_true; auto); try (apply tltb_R_true; lra). Qed.
Lemma ex_b (x : R) w : broadcasts (shp (ascalar x)) w.
Proof. exists w, []. split; [rewrite app_nil_r; reflexivity|constructor]. Qed.
(** two assets, dx/x = dw from 1, the correlation being 1/2: the mean of the product of the first at time 2 and of the
    second at time 1 is exp(1/2) *)
Example C72_ex_product s : source_dw (the_normal []) (the_mvnormal []) GNone (IArr ex_corr) INone 3 [2%nat] = Ok s ->
  let X g := value_at (sde_call Rminus (lognorm_process (I := unit) (at_step s) false [2%nat] 3 (ascalar 1) ex_args) 0 (fun _ => [1/2]) 4 (g, tt) [3%nat] ex_times) in
  the_law [] 4 (fun g => X g 2%nat [0; 1]%nat * X g 1%nat [1; 1]%nat) = exp (1/2).
Proof.
  intros HS X.
  refine (eq_trans (C72_lognorm_product (I := unit) (the_law []) (the_is_law []) (the_normal []) (the_mvnormal []) (the_normal_ok []) (the_mvnormal_ok []) [2%nat] 3 ex_c (the_normal_law [] _) _
    (IArr ex_corr) INone s _ HS (ascalar 1) (ascalar 0) (ascalar 1) ex_args eq_refl eq_refl (ex_b 1 _) (ex_b 0 _) (ex_b 1 _) (fun _ => [1/2]) 4 false tt ex_times 0 ex_valid eq_refl ltac:(cbn; lia)
    4 2%nat 1%nat 2 1 [0; 1]%nat [1; 1]%nat ltac:(cbn; lia) ltac:(intros; cbn; lra) _ _ eq_refl eq_refl ltac:(repeat constructor) ltac:(repeat constructor)) _).
  - intros v M E. destruct v as [|a [|b v]]; try discriminate. injection E as <-. apply the_mvnormal_law. lra.
  - right. left. exists ex_corr, [], 2%nat. repeat split. left. reflexivity.
  - intros m n. unfold ex_c. destruct (Nat.eq_dec m n), (Nat.eq_dec n m); congruence.
  - intro m. unfold ex_c. destruct (Nat.eq_dec m m); congruence.
  - change (bget (ascalar ?x) ?i) with x. unfold lognorm_mean. rewrite Rmult_0_l, Rmult_0_l, exp_0. rewrite Rmin_right by lra. rewrite !Rmult_1_l. f_equal.
    unfold entry_corr. cbn. unfold ex_c. destruct (Nat.eq_dec 0 1); [lia|]. field.
Qed.
Example C72_ex_source : exists s, source_dw (the_normal []) (the_mvnormal []) GNone (IArr ex_corr) INone 3 [2%nat] = Ok s.
Proof. eexists. reflexivity. Qed.
(** dx = -x dt + dw from 1, up to time 1 with n equal steps: the mean of cos(x) approaches that of a normal variate of mean
    exp(-1) and variance (1 - exp(-2))/2, at least as fast as C/n *)
Definition ex_linspace (a b : R) (n : nat) : list R := map (fun i => a + INR i * ((b - a) / INR (n - 1))) (seq 0 n).
Definition ex_ou : dict (M_sde.param R R) := [("theta"%string, PConst (ascalar 0)); ("k"%string, PConst (ascalar 1)); ("sigma"%string, PConst (ascalar 1))].
Example C72_ex_oruh : exists C, forall n s, (0 < n)%nat -> source_dw (the_normal []) (the_mvnormal []) GNone INone INone 1 [] = Ok s ->
  let X g := value_at (sde_call Rminus (ou_process (I := unit) (at_step s) false [] 1 (ascalar 1) ex_ou) 0 (pace ex_linspace (StepsScalar (S n))) (n + 3) (g, tt) [2%nat] [0; 1]) 1 [0%nat] in
  Rabs (the_law [] (n + 3) (fun g => cos (X g)) - exp (- ((1 - exp (-2))/4)) * cos (exp (-1))) <= C / INR n.
Proof.
  destruct (C72_oruh_chf 1 0 1 1 1 1) as (C & H). exists C. intros n s Hn HS X.
  assert (NP : 1 <= INR n) by (apply (le_INR 1); lia).
  assert (V : valid_timeline [0; 1]) by (split; [discriminate|]; split; repeat constructor; unfold isnum; simpl; try (apply teqb_R_true; auto); try (apply tltb_R_true; lra)).
  assert (EQ : equally_spaced ex_linspace).
  { intros a b m i H1 H2. unfold ex_linspace. rewrite (map_nth_error _ i (seq 0 m) (d := i)); [reflexivity|]. rewrite (nth_error_nth' _ 0%nat) by (rewrite seq_length; auto). rewrite seq_nth by auto. reflexivity. }
  assert (LP : len (pace ex_linspace (StepsScalar (S n)) [0; 1]) = S n).
  { cbn [pace]. unfold ex_linspace. destruct n; [lia|]. cbn [Nat.leb]. rewrite ?map_length, ?seq_length. reflexivity. }
  assert (FI : fine (1 / INR n) [0; 1] (pace ex_linspace (StepsScalar (S n)) [0; 1])).
  { assert (F := P_euler.C68_fine_steps ex_linspace (S n) [0; 1] 0 EQ ltac:(lia) V eq_refl). cbn [last] in F. replace (S n - 1)%nat with n in F by lia. rewrite Rminus_0_r in F. exact F. }
  destruct (H gen unit (the_law []) (the_normal []) (the_mvnormal []) [] 1%nat (fun m n => if Nat.eq_dec m n then 1 else 0) INone INone s false (ascalar 1) (ascalar 0) (ascalar 1) (ascalar 1) ex_ou
    (pace ex_linspace (StepsScalar (S n))) (n + 3)%nat tt [0; 1] 0 (1 / INR n) (n + 3)%nat 1%nat 1 [0%nat]) as (z & [Z1 _] & [CZ _]); try reflexivity.
  - apply the_is_law.
  - apply the_normal_ok.
  - apply the_mvnormal_ok.
  - apply the_normal_law.
  - intros v M E. destruct v; discriminate.
  - left. repeat split.
  - intro m. destruct (Nat.eq_dec m m); congruence.
  - exact HS.
  - apply ex_b.
  - apply ex_b.
  - apply ex_b.
  - apply ex_b.
  - exact V.
  - intros t [<-|[<-|[]]]; lra.
  - rewrite LP. cbn. lia.
  - rewrite LP. cbn. lia.
  - assert (0 < / INR n) by (apply Rinv_0_lt_compat; lra). assert (/ INR n <= 1) by (rewrite <- Rinv_1; apply Rinv_le_contravar; lra). unfold Rdiv. lra.
  - exact FI.
  - repeat constructor.
  - fold X in Z1. replace (the_law [] (n + 3) (fun g => cos (X g))) with (fst z).
    + replace (C / INR n) with (C * (1 / INR n)) by (field; lra). eapply Rle_trans; [|exact CZ]. right. f_equal. f_equal. unfold normal_chf, oruh_mean. cbn [fst].
      rewrite revert_var by lra. f_equal; f_equal; [|rewrite Rminus_0_r; replace (- (1) * 1) with (-1) by ring; ring].
      replace (-2 * 1 * (1 - 0)) with (-2) by ring. field.
    + refine (eq_trans (eq_sym Z1) _). apply (proj1 (the_is_law [])). intro g. change (value_at _ 1 [0%nat]) with (X g). unfold cexp, cj, Cmult, RtoC. cbn [fst snd].
      replace (0 * X g - 1 * 0) with 0 by ring. rewrite exp_0, Rmult_1_l. f_equal. ring.
Qed.
End Ex.
