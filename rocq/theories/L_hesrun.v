(** Lemmas on the joint law of two entries of Wiener increments, and on the values of integrations of the Heston processes. *)
From Coq Require Import String List Arith Bool ZArith Reals Lra Lia Sorted Permutation.
From Coquelicot Require Import Coquelicot.
From Verif Require Import Base BaseOrd BaseNum BaseArr M_paths S_paths S_run L_ord L_paths8
  M_process M_source S_source M_sde S_sde S_sdes L_sde L_sde2 L_sde3 L_sdes2 M_presets S_presets L_presets L_presets2 L_presets3 M_integrate S_integrate P_source P_source2 P_source4 S_true2 S_euler L_euler L_euler2
  BaseNd BaseIdx S_process L_nd L_pack L_process P_source3 M_rv S_rv M_analytical S_analytical M_anti S_dist S_law P_chf L_line L_complex L_law L_law2 L_law4 L_law5 S_gval L_gval L_gval2 L_gval3 L_gval4 S_tval L_tval L_tval2 L_tval3 L_tval4 L_tval6
  S_info L_info L_info2 L_gop L_cirop L_hesop L_hesop2 L_nrun L_cirrun S_heslaw.
Import ListNotations.
Local Open Scope R_scope.

(** *** means of pairs *)
Definition EP (r : R) (V : R -> R -> R) : R := EN2 (fun z z' => V (r*z + sqrt (1 - r*r)*z') z).
Lemma EP_tame r V : tame2 V -> tame2 (fun z z' => V (r*z + sqrt (1 - r*r)*z') z).
Proof. intro H. apply (tame2_aff V 0 r (sqrt (1 - r*r)) 0 1) in H. eapply tame2_ext; [|exact H]. intros. cbv beta. f_equal; ring. Qed.
Lemma EP_mean r V : tame2 V -> pair_mean r V (EP r V).
Proof.
  intro H. apply (EP_tame r) in H. exists (fun z => EN (fun z' => V (r*z + sqrt (1 - r*r)*z') z)). split.
  - intro z. apply EN_ok. exact (tame2_inner _ z H).
  - apply EN_ok. exact (tame2_outer _ H).
Qed.
Lemma tame_moderate V : tame2 V -> moderate2 V.
Proof. intros (H & C & c & _ & _ & D). split; [exact H|]. exists C, c. exact D. Qed.
Lemma tame2_lin V a b c d : tame2 V -> tame2 (fun x y => V (a + b*x) (c + d*y)).
Proof.
  intros (H & C & e & A & B & D). split.
  - intro p. unfold joint. apply (continuous_comp (fun p : R*R => (a + b*fst p, c + d*snd p)) (joint V)); [|apply H].
    apply (continuous_comp_2 (fun p : R*R => a + b*fst p) (fun p : R*R => c + d*snd p) (fun x y => (x, y))).
    + apply (continuous_plus (V := R_NormedModule) (fun _ : R*R => a) (fun p => b*fst p)); [apply continuous_const|]. apply (continuous_mult (K := R_AbsRing) (fun _ : R*R => b) fst); [apply continuous_const|destruct p; apply continuous_fst].
    + apply (continuous_plus (V := R_NormedModule) (fun _ : R*R => c) (fun p => d*snd p)); [apply continuous_const|]. apply (continuous_mult (K := R_AbsRing) (fun _ : R*R => d) snd); [apply continuous_const|destruct p; apply continuous_snd].
    + apply (continuous_ext (fun p : R*R => p)); [intros []; reflexivity|apply continuous_id].
  - exists (C*exp (e*(Rabs a + Rabs c))), (e*(Rabs b + Rabs d)). assert (P1 := Rabs_pos b). assert (P2 := Rabs_pos d).
    split; [apply Rmult_le_pos; auto; left; apply exp_pos|]. split; [apply Rmult_le_pos; lra|]. intros x y. eapply Rle_trans; [apply D|]. rewrite Rmult_assoc, <- exp_plus. apply Rmult_le_compat_l; auto. apply exp_le.
    assert (Q1 := Rabs_triang a (b*x)). assert (Q2 := Rabs_triang c (d*y)). rewrite Rabs_mult in Q1, Q2. assert (P3 := Rabs_pos x). assert (P4 := Rabs_pos y).
    assert (0 <= Rabs b*Rabs y) by (apply Rmult_le_pos; auto). assert (0 <= Rabs d*Rabs x) by (apply Rmult_le_pos; auto).
    replace (e*(Rabs a + Rabs c) + e*(Rabs b + Rabs d)*(Rabs x + Rabs y)) with (e*(Rabs a + Rabs c + (Rabs b + Rabs d)*(Rabs x + Rabs y))) by ring. apply Rmult_le_compat_l; auto. lra.
Qed.
Lemma tame2_scale V s : tame2 V -> tame2 (fun x y => V (s*x) (s*y)).
Proof. intro H. apply (tame2_lin V 0 s 0 s) in H. eapply tame2_ext; [|exact H]. intros. cbv beta. f_equal; ring. Qed.
Lemma EP_opp r V : tame2 V -> EP r (fun x y => V (- x) (- y)) = EP r V.
Proof.
  intro H. apply (EP_tame r) in H. set (U := fun z z' => V (r*z + sqrt (1 - r*r)*z') z) in *. unfold EP, EN2.
  change (EN (fun z => EN (fun z' => V (- (r*z + sqrt (1 - r*r)*z')) (- z))) = EN (fun z => EN (U z))). rewrite <- (EN_opp (fun z => EN (U z)) (tame2_outer U H)). apply EN_ext. intro z.
  rewrite <- (EN_opp (U (- z)) (tame2_inner U (- z) H)). apply EN_ext. intro z'. unfold U. f_equal. ring.
Qed.

(** *** two entries of increments *)
Section Entries.
Context {G : Type}.
Variable L : nat -> (G -> R) -> R.
Definition pair_normal (dw : G -> R -> R -> res (G * arr R)) (ix jx : list nat) (r : R) : Prop :=
  forall t dt d (Phi : R -> R -> G -> R) V, tame2 V -> (forall a b, L d (Phi a b) = V a b) ->
    L (S d) (fun g => Phi (snd (dw_inc dw g t dt) ix) (snd (dw_inc dw g t dt) jx) (fst (dw_inc dw g t dt))) =
    EP r (fun x y => V (sqrt (Rabs dt)*x) (sqrt (Rabs dt)*y)).
Hypothesis HL : is_law L.
(** from a draw that is multiplied by the square root of the step *)
Lemma pair_of (dw : G -> R -> R -> res (G * arr R)) ix jx r (draw : R -> R -> G -> res (arr R) * G) ix' jx' :
  (forall t dt, pair_law L (draw t dt) ix' jx' r) ->
  (forall g t dt, exists a g' z, draw t dt g = (Ok a, g') /\ dw g t dt = Ok (g', z) /\ bget z ix = dat a ix' * sqrt (Rabs dt) /\ bget z jx = dat a jx' * sqrt (Rabs dt)) ->
  pair_normal dw ix jx r.
Proof using HL.
  intros PL HV t dt d Phi V TV HP. set (s := sqrt (Rabs dt)). assert (TS := tame2_scale V s TV).
  rewrite <- (PL t dt d (fun a b => Phi (s*a) (s*b)) (fun x y => V (s*x) (s*y)) _ (tame_moderate _ TS) (fun a b => HP (s*a) (s*b)) (EP_mean r _ TS)).
  apply (proj1 HL). intro g. unfold dw_inc. destruct (HV g t dt) as (a & g' & z & -> & -> & E1 & E2). cbn [fst snd]. rewrite E1, E2. fold s. rewrite !(Rmult_comm s). reflexivity.
Qed.

Variables (normal : list nat -> G -> res (arr R) * G) (mvnormal : arr R -> list nat -> G -> res (arr R) * G).
Hypothesis N_ok : normal_ok normal.
Hypothesis M_ok : mvnormal_ok mvnormal.
Variables (v : list nat) (M n : nat) (c : R -> nat -> nat -> R) (corr rho : input R).
Let vshape := (v ++ [M])%list.
Hypothesis HP : if (match corr, rho with INone, INone => true | _, _ => false end) then normal_pairs L normal v M n else forall t, mvnormal_pairs L mvnormal M (c t) (v ++ [n]).
Hypothesis HC : correlated_at corr rho vshape c.
Variables (q : list nat) (i j : nat) (r : R).
Hypothesis Hq : inb v q.
Hypothesis Hij : (i < j < M)%nat.
Hypothesis HR : forall t, c t i j = r.

Lemma wiener_total s : wiener_source normal mvnormal corr rho n vshape = Ok s -> forall g t dt, exists g' z, at_step s g t dt = Ok (g', z) /\ shp z = (vshape ++ [n])%list.
Proof using N_ok M_ok HC.
  intros HS g t dt. destruct (source_kind_at normal mvnormal vshape n c corr rho s HC HS) as (p & -> & K). eapply kind_at_value; eauto.
Qed.
Lemma wiener_pair s p : wiener_source normal mvnormal corr rho n vshape = Ok s -> (p < n)%nat -> pair_normal (at_step s) (q ++ [i; p])%list (q ++ [j; p])%list r.
Proof using HL N_ok M_ok HP HC Hq Hij HR.
  intros HS Hp. assert (W : (vshape ++ [n])%list = (v ++ [M; n])%list) by (unfold vshape; rewrite <- app_assoc; reflexivity).
  assert (IX : forall m, (m < M)%nat -> inb (v ++ [M; n]) (q ++ [m; p])%list) by (intros m Hm; apply inb_app; auto; repeat constructor; auto).
  destruct (source_kind_in normal mvnormal vshape n c corr rho s HC HS) as (pa & -> & [(-> & -> & -> & CD)|(NN & v' & M' & EV & HA)]).
  - assert (R0 : r = 0) by (rewrite <- (HR 0), CD; destruct (Nat.eq_dec i j); [lia|reflexivity]). rewrite R0.
    apply (pair_of _ _ _ _ (fun _ _ => normal (v ++ [M; n])%list) (q ++ [i; p])%list (q ++ [j; p])%list); [intros _ _; apply HP; auto|].
    intros g t dt. destruct (C27_uncorrelated normal mvnormal n vshape (ascalar t) (ascalar dt) g [] N_ok eq_refl) as (z & g' & dz & E1 & D & S & H).
    cbn [app] in E1, S. rewrite W in E1, S. exists z, g', dz. split; [exact E1|]. unfold at_step. rewrite D. split; [reflexivity|].
    assert (GET : forall m, (m < M)%nat -> bget dz (q ++ [m; p])%list = dat z (q ++ [m; p])%list * sqrt (Rabs dt)).
    { intros m Hm. rewrite bget_self by (rewrite S; apply IX; exact Hm). specialize (H [] (q ++ [m; p])%list). cbn [app] in H. rewrite H; [reflexivity|constructor|]. rewrite W. apply IX; exact Hm. }
    split; apply GET; lia.
  - assert (PR : forall t, mvnormal_pairs L mvnormal M (c t) (v ++ [n])) by (destruct corr, rho; auto; destruct NN; congruence).
    unfold vshape in EV. apply app_inj_tail in EV. destruct EV as [<- <-].
    assert (HA' : forall t, exists a, intensity pa t = Ok a /\ is_matrix M a) by (intro t'; destruct (HA t') as (a' & ? & ? & _); eauto).
    apply (pair_of _ _ _ _ (fun t dt => match intensity pa (t + dt/2) with Ok a => mvnormal (plain a) (v ++ [n])%list | Err _ => normal [] end) ((q ++ [p]) ++ [i])%list ((q ++ [p]) ++ [j])%list).
    + intros t dt. destruct (HA (t + dt/2)) as (a & -> & Ha & Hc). destruct (drop_paths_plain M a Ha) as (_ & D2 & D3).
      rewrite <- (HR (t + dt/2)). apply (PR (t + dt/2) (plain a) D2); [|apply inb_app; auto; repeat constructor; auto|auto].
      intros a1 a2 H1 H2. exact (eq_trans (D3 a1 a2) (eq_sym (Hc a1 a2 H1 H2))).
    + intros g t dt. destruct (HA (t + dt/2)) as (a & EA & Ha & Hc). rewrite EA.
      destruct (mv_value normal mvnormal M_ok n pa v M a g t dt HA' EA) as (z & g' & dz & E1 & D & S & H). exists z, g', dz. split; [exact E1|]. unfold at_step, vshape. rewrite D. split; [reflexivity|].
      assert (GET : forall m, (m < M)%nat -> bget dz (q ++ [m; p])%list = dat z ((q ++ [p]) ++ [m])%list * sqrt (Rabs dt)).
      { intros m Hm. rewrite bget_self by (rewrite S; apply IX; exact Hm). rewrite H by auto. rewrite <- app_assoc. reflexivity. }
      split; apply GET; lia.
Qed.
(** antithetic paths *)
Lemma odd_halves s : odd_wiener_source normal mvnormal corr rho (2*n) vshape = Ok s -> exists s0, wiener_source normal mvnormal corr rho n vshape = Ok s0 /\
  forall g t dt, exists g' z z', at_step s0 g t dt = Ok (g', z) /\ at_step s g t dt = Ok (g', z') /\ shp z' = (vshape ++ [(2*n)%nat])%list /\
    forall k p, inb vshape k -> (p < n)%nat -> bget z' (k ++ [p])%list = bget z (k ++ [p])%list /\ bget z' (k ++ [(n + p)%nat])%list = - bget z (k ++ [p])%list.
Proof using N_ok M_ok HC.
  clear HP HR Hij Hq. unfold odd_wiener_source, antithetics_source. destruct (C30_even_paths (2*n)) as [E0 _]. rewrite Nat.even_mul in E0. cbn [Nat.even orb] in E0. rewrite E0. cbn [rbind].
  replace (2*n/2)%nat with n by (rewrite Nat.mul_comm, Nat.div_mul; lia).
  intro HS. destruct (wiener_source normal mvnormal corr rho n vshape) as [s0|] eqn:E; [|discriminate]. cbn [rbind] in HS. injection HS as HS. exists s0. split; [reflexivity|].
  intros g t dt. destruct (wiener_total s0 E g t dt) as (g' & z & EZ & S). unfold at_step in EZ. destruct (s0 (ascalar t) (ascalar dt) g) as [[z1|] g1] eqn:E1; [|discriminate].
  injection EZ as -> ->. destruct (C30_halves (fun z => 0 - z) (s0 (ascalar t) (ascalar dt)) g z g' vshape n E1 S) as (z' & H1 & H2 & H3).
  exists g', z, z'. unfold at_step. rewrite E1, <- HS, H1. split; [reflexivity|]. split; [reflexivity|]. split; [exact H2|].
  intros k p Hk Hp. destruct (H3 k p Hk Hp) as [X Y].
  rewrite !(bget_self z') by (rewrite H2; apply inb_app; auto; repeat constructor; lia). rewrite (bget_self z) by (rewrite S; apply inb_app; auto; repeat constructor; lia).
  rewrite X, Y. split; [reflexivity|ring].
Qed.
Lemma odd_pair s p : odd_wiener_source normal mvnormal corr rho (2*n) vshape = Ok s -> (p < 2*n)%nat -> pair_normal (at_step s) (q ++ [i; p])%list (q ++ [j; p])%list r.
Proof using HL N_ok M_ok HP HC Hq Hij HR.
  intros HS Hp. destruct (odd_halves s HS) as (s0 & E0 & HV). intros t dt d Phi V TV HPhi.
  assert (AP : forall m p, (q ++ [m; p] = (q ++ [m]) ++ [p])%list) by (intros; rewrite <- app_assoc; reflexivity).
  assert (IV : forall m, (m < M)%nat -> inb vshape (q ++ [m])%list) by (intros; apply inb_app; auto; repeat constructor; auto).
  destruct (lt_dec p n) as [J|J].
  - rewrite <- (wiener_pair s0 p E0 J t dt d Phi V TV HPhi). apply (proj1 HL). intro g. unfold dw_inc. destruct (HV g t dt) as (g' & z & z' & E1 & E2 & _ & H). rewrite E1, E2. cbn [fst snd].
    rewrite !AP. destruct (H (q ++ [i])%list p (IV i ltac:(lia)) J) as [-> _]. destruct (H (q ++ [j])%list p (IV j ltac:(lia)) J) as [-> _]. reflexivity.
  - set (k := (p - n)%nat). assert (Hk : (k < n)%nat) by (unfold k; lia). replace p with (n + k)%nat by (unfold k; lia). set (sc := sqrt (Rabs dt)).
    assert (TO : tame2 (fun x y => V (- x) (- y))) by (apply (tame2_scale V (-1)) in TV; eapply tame2_ext; [|exact TV]; intros; cbv beta; f_equal; ring).
    rewrite <- (EP_opp r (fun x y => V (sc*x) (sc*y)) (tame2_scale V sc TV)).
    transitivity (EP r (fun x y => (fun x y => V (- x) (- y)) (sc*x) (sc*y))).
    + unfold sc. rewrite <- (wiener_pair s0 k E0 Hk t dt d (fun a b => Phi (- a) (- b)) (fun x y => V (- x) (- y)) TO (fun a b => HPhi (- a) (- b))).
      apply (proj1 HL). intro g. unfold dw_inc. destruct (HV g t dt) as (g' & z & z' & E1 & E2 & _ & H). rewrite E1, E2. cbn [fst snd].
      rewrite !AP. destruct (H (q ++ [i])%list k (IV i ltac:(lia)) Hk) as [_ ->]. destruct (H (q ++ [j])%list k (IV j ltac:(lia)) Hk) as [_ ->]. reflexivity.
    + apply EN2_ext. intros. cbv beta. f_equal; ring.
Qed.
End Entries.

(** *** values of one entry, with the price's logarithm and its variance *)
Section Law.
Context {G : Type}.
Variable L : nat -> (G -> R) -> R.
Hypothesis HL : is_law L.
Variables (dw : G -> R -> R -> res (G * arr R)) (ex ey : list nat) (mu sigma r theta k xi : R).
Hypothesis HE : pair_normal L dw ex ey r.
Variables (Fs : R -> R -> (list nat -> R) -> (list nat -> R) -> list nat -> R) (gr : list R).
Hypothesis HK : 0 < k.
Hypothesis HT : 0 < theta.
Hypothesis EX : forall t dt x z, Fs t dt x z ex = x ex + (mu - sigma*sigma*Rmax (x ey) 0/2)*dt + sigma*sqrt (Rmax (x ey) 0)*z ex.
Hypothesis EY : forall t dt x z, Fs t dt x z ey = x ey + k*(theta - Rmax (x ey) 0)*dt + xi*sqrt (Rmax (x ey) 0)*z ey.
Fixpoint hgo (m n : nat) (x y : R) (g : G) : R * R :=
  match m with
  | O => (x, y)
  | S m => let p := dw_inc dw g (nth n gr 0) (gap gr n) in
      hgo m (S n) (x + (mu - sigma*sigma*Rmax y 0/2)*gap gr n + sigma*sqrt (Rmax y 0)*snd p ex) (y + k*(theta - Rmax y 0)*gap gr n + xi*sqrt (Rmax y 0)*snd p ey) (fst p)
  end.
Lemma fgo_hgo m : forall n x g, fgo (dw_inc dw) Fs gr m n x g ex = fst (hgo m n (x ex) (x ey) g) /\ fgo (dw_inc dw) Fs gr m n x g ey = snd (hgo m n (x ex) (x ey) g).
Proof using EX EY. induction m as [|m IH]; intros n x g; [auto|]. cbn [fgo hgo]. cbv zeta. rewrite <- EX with (t := nth n gr 0), <- EY with (t := nth n gr 0). apply IH. Qed.
Lemma hgo_law F M : tame2 F -> (forall j, (j < M)%nat -> 0 <= gap gr j) -> forall m n x y d, (m <= d)%nat -> (n + m <= M)%nat ->
  L d (fun g => F (fst (hgo m n x y g)) (snd (hgo m n x y g))) = itr2 mu sigma r theta k xi (gap gr) m n F x y.
Proof using HE HK HL HT.
  intros TF GP m. induction m as [|m IH]; intros n x y d Hd HM; [exact (proj2 HL d (F x y))|]. destruct d as [|d]; [lia|].
  assert (G0 : 0 <= gap gr n) by (apply GP; lia).
  cbn [itr2]. rewrite HQ_eq. set (h := gap gr n) in *.
  assert (TI : tame2 (itr2 mu sigma r theta k xi (gap gr) m (S n) F)) by (apply (itr2_tame mu sigma r theta k xi HK HT (gap gr) M); auto; lia).
  set (V := itr2 mu sigma r theta k xi (gap gr) m (S n) F) in *.
  set (q := sqrt (Rmax y 0)). set (a := x + (mu - sigma*sigma*Rmax y 0/2)*h). set (b := y + k*(theta - Rmax y 0)*h).
  assert (X := HE (nth n gr 0) h d (fun u v g => F (fst (hgo m (S n) (a + sigma*q*u) (b + xi*q*v) g)) (snd (hgo m (S n) (a + sigma*q*u) (b + xi*q*v) g)))
    (fun u v => V (a + sigma*q*u) (b + xi*q*v)) (tame2_lin V a (sigma*q) b (xi*q) TI)).
  etransitivity; [etransitivity; [|apply X]|].
  - apply (proj1 HL). intro g. reflexivity.
  - intros u v. apply IH; lia.
  - rewrite Rabs_pos_eq by exact G0. unfold EP. apply EN2_ext. intros z z'. unfold L_cirop.Aa, drift, sd, rr, pos. fold q. fold a. fold b. f_equal; ring.
Qed.
End Law.

(** *** integrations *)
Definition quiet {T V Wd I} {NV : Num V} (ig : integ T V Wd I) : integ T V Wd I :=
  mkInteg (ig_ids ig) (ig_src ig) (ig_A ig) (ig_w ig) (ig_init ig) (ig_log ig) (ig_let ig) false no_info_begin no_info_next no_info_store no_info_end.
Lemma quiet_run {T V Wd I} {TO : TOrd T} {NV : Num V} tsub (ig : integ T V Wd I) i0 pace fuel st sh tl :
  sde_call tsub (set_getinfo false ig) i0 pace fuel st sh tl = sde_call tsub (quiet ig) i0 pace fuel st sh tl.
Proof. reflexivity. Qed.

Section Run.
Context {G : Type}.
Variable L : nat -> (G -> R) -> R.
Hypothesis HL : is_law L.
Variables (vshape : list nat) (paths : nat) (dw : G -> R -> R -> res (G * arr R)).
Let addaxis := force_addaxis false vshape.
Let w := (sdes_wshape 2 addaxis vshape ++ [paths])%list.
Let vp := (vshape ++ [paths])%list.
Let cx := S_sdes.comp addaxis vshape 0.
Let cy := S_sdes.comp addaxis vshape 1.
Hypothesis HW : forall g t dt, exists g' z, dw g t dt = Ok (g', z) /\ shp z = w.
Variable set_order : list string -> list string.
Hypothesis PERM : forall l, Permutation (set_order l) l.
Variables (gi : bool) (x0 y0 mu sigma theta k xi : arr R) (args : dict (M_sde.param R R)).
Hypothesis AM : const_arg args "mu" mu.
Hypothesis AS : const_arg args "sigma" sigma.
Hypothesis AT : const_arg args "theta" theta.
Hypothesis AK : const_arg args "k" k.
Hypothesis AX : const_arg args "xi" xi.
Hypothesis BX0 : broadcasts (shp x0) vp.
Hypothesis BY0 : broadcasts (shp y0) vp.
Hypothesis BM : broadcasts (shp mu) vp.
Hypothesis BS : broadcasts (shp sigma) vp.
Hypothesis BT : broadcasts (shp theta) vp.
Hypothesis BK : broadcasts (shp k) vp.
Hypothesis BX : broadcasts (shp xi) vp.
Variables (pace_fn : list R -> list R) (fuel : nat) (inf : arr nat) (timeline : list R) (t0 : R).
Hypothesis V0 : valid_timeline timeline.
Hypothesis N0 : nth_error timeline 0 = Some t0.
Hypothesis HF : (List.length timeline + List.length (pace_fn timeline) <= fuel)%nat.

Let full : integ R R G (arr nat) := full_heston_process dw set_order gi vshape paths x0 y0 args.
(** an array of both components *)
Definition both (A B : list nat -> R) (ix : list nat) : R :=
  if addaxis then match dim2 ix with 0%nat => A (pop2 ix) | _ => B (pop2 ix) end
  else let d := last vshape 0%nat in if Nat.ltb (dim2 ix) d then A ix else B (set2 (dim2 ix - d) ix).
Lemma PK : packable addaxis vshape.
Proof. apply packable_force. Qed.
Lemma both_get A B ix : inb vp ix -> both A B (cx ix) = A ix /\ both A B (cy ix) = B ix.
Proof using.
  clear -addaxis vp cx cy. intro HI. pose proof (vshape_split addaxis vshape paths PK) as VS. apply inb_snoc in HI. destruct HI as (a & b & -> & HA & HB). unfold both, cx, cy, S_sdes.comp. rewrite removelast_last, last_last.
  destruct addaxis.
  - rewrite !dim2_snoc, !pop2_snoc. auto.
  - destruct (VS eq_refl) as (v & d & ->). rewrite last_last.
    apply inb_snoc in HA. destruct HA as (c & j & -> & HC & HJ). rewrite removelast_last, last_last.
    rewrite !dim2_snoc, !set2_snoc. replace (0 * d + j)%nat with j by lia. replace (1 * d + j)%nat with (d + j)%nat by lia.
    destruct (Nat.ltb_spec j d); [|lia]. destruct (Nat.ltb_spec (d + j) d); [lia|].
    replace (d + j - d)%nat with j by lia. rewrite (app2 c j b). auto.
Qed.
Lemma both_cover jx : inb w jx -> exists ix, inb vp ix /\ (jx = cx ix \/ jx = cy ix).
Proof using.
  clear -addaxis w vp cx cy. intro H. destruct (comp_cover addaxis vshape paths PK 2 jx H) as (m & ix & Hm & HI & ->). exists ix. split; [exact HI|]. destruct m as [|[|m]]; [left|right|lia]; reflexivity.
Qed.
Let Fs (t dt : R) (x z : list nat -> R) : list nat -> R :=
  both (fun ix => x (cx ix) + (bget mu ix - bget sigma ix*bget sigma ix*Rmax (x (cy ix)) 0/2)*dt + bget sigma ix*sqrt (Rmax (x (cy ix)) 0)*z (cx ix))
       (fun ix => x (cy ix) + bget k ix*(bget theta ix - Rmax (x (cy ix)) 0)*dt + bget xi ix*sqrt (Rmax (x (cy ix)) 0)*z (cy ix)).
Lemma heston_total : total_integ (quiet full) (fun _ => True).
Proof using HW PERM AM AS AT AK AX BX0 BY0 BM BS BT BK BX.
  split; cbn [quiet full full_heston_process ig_init ig_A ig_src ig_let ig_info_next ig_info_end ig_w ig_ids]; fold addaxis; fold w.
  - intro t. unfold heston_init. rewrite !assign_can by (cbn [amap shp]; apply can_broadcasts; assumption). cbn [rbind]. eauto.
  - intros t x. unfold sdes_A. destruct (unpack_ok addaxis vshape paths PK 2 (mkArr w x) eq_refl) as (xs & E & LX & HX). rewrite E. cbn [rbind].
    destruct xs as [|a [|b [|]]]; try discriminate. destruct (HX 1%nat b eq_refl) as [SB _]. fold vp in SB.
    unfold heston_sde. rewrite (arg_eval _ _ _ _ AM), (arg_eval _ _ _ _ AS), (arg_eval _ _ _ _ AT), (arg_eval _ _ _ _ AK), (arg_eval _ _ _ _ AX). cbn [rbind peval]. unfold plus_part, revert.
    assert (CB : can (shp b) vp = true) by (rewrite SB; apply can_refl). pose proof (proj2 (can_broadcasts _ _) BM) as CM. pose proof (proj2 (can_broadcasts _ _) BS) as CS.
    pose proof (proj2 (can_broadcasts _ _) BT) as CT. pose proof (proj2 (can_broadcasts _ _) BK) as CK. pose proof (proj2 (can_broadcasts _ _) BX) as CXI.
    destruct (aop_ok nmax b (ascalar nzero) vp CB (can_nil _)) as (yp & Q1 & Q2). rewrite Q1. cbn [rbind].
    destruct (aop_ok nmul sigma sigma vp CS CS) as (ss & Q3 & Q4). rewrite Q3. cbn [rbind].
    destruct (aop_ok nmul ss yp vp Q4 Q2) as (ssy & Q5 & Q6). rewrite Q5. cbn [rbind].
    destruct (aop_ok ndiv ssy two vp Q6 (can_nil _)) as (h & Q7 & Q8). rewrite Q7. cbn [rbind].
    destruct (aop_ok nsub mu h vp CM Q8) as (d1 & Q9 & Q10). rewrite Q9. cbn [rbind].
    destruct (aop_ok nmul sigma (amap nsqrt yp) vp CS Q2) as (s1 & Q11 & Q12). rewrite Q11. cbn [rbind].
    destruct (aop_ok nsub theta yp vp CT Q2) as (dd & Q13 & Q14). rewrite Q13. cbn [rbind].
    destruct (aop_ok nmul k dd vp CK Q14) as (d2 & Q15 & Q16). rewrite Q15. cbn [rbind].
    destruct (aop_ok nmul xi (amap nsqrt yp) vp CXI Q2) as (s2 & Q17 & Q18). rewrite Q17. cbn [rbind].
    cbn [check_seq List.length Nat.eqb mapr]. rewrite !dw_check. cbn [rbind].
    change (union_keys [[("dt"%string, d1); ("dw"%string, s1)]; [("dt"%string, d2); ("dw"%string, s2)]]) with dw_ids.
    assert (PI : forall id, In id (set_order dw_ids) -> In id dw_ids) by (intros id H; eapply Permutation_in; [apply PERM|exact H]).
    assert (PQ : forall l, (forall id, In id l -> In id dw_ids) -> exists A,
      mapr (fun id => rbind (pack addaxis vshape paths (map (fun a0 => match lookup id a0 with Some c => c | None => ascalar nzero end) [[("dt"%string, d1); ("dw"%string, s1)]; [("dt"%string, d2); ("dw"%string, s2)]])) (fun P => Ok (id, P))) l = Ok A /\
      List.Forall (fun '(id, c) => In id dw_ids /\ can (shp c) w = true) A).
    { induction l as [|id l IH]; intro Hl; [exists []; split; [reflexivity|constructor]|].
      destruct (IH (fun i H => Hl i (or_intror H))) as (A & EA & FA).
      assert (PO : exists P, pack addaxis vshape paths (map (fun a0 => match lookup id a0 with Some c => c | None => ascalar nzero end) [[("dt"%string, d1); ("dw"%string, s1)]; [("dt"%string, d2); ("dw"%string, s2)]]) = Ok P /\ shp P = w).
      { destruct (Hl id (or_introl eq_refl)) as [<-|[<-|[]]].
        - destruct (pack_ok addaxis vshape paths PK [d1; d2]) as (P & E1 & E2 & _); [discriminate|repeat constructor; assumption|]. exists P. split; [exact E1|exact E2].
        - destruct (pack_ok addaxis vshape paths PK [s1; s2]) as (P & E1 & E2 & _); [discriminate|repeat constructor; assumption|]. exists P. split; [exact E1|exact E2]. }
      destruct PO as (P & EP & SP). exists ((id, P) :: A). cbn [mapr]. rewrite EP. cbn [rbind]. rewrite EA. cbn [rbind]. split; [reflexivity|]. constructor; [|exact FA].
      split; [apply Hl; left; reflexivity|]. rewrite SP. apply can_refl. }
    exact (PQ _ PI).
  - intros id wd t dt HI _. destruct HI as [<-|[<-|[]]].
    + exists wd, (ascalar dt). repeat split; auto.
    + destruct (HW wd t dt) as (g' & z & E & S). exists g', z. split; [exact E|]. split; [rewrite S; apply can_refl|exact Logic.I].
  - intros t x. exact (full_let_ok dw set_order gi vshape paths x0 y0 args t x).
  - intros. unfold no_info_next. eauto.
  - intros. unfold no_info_end. eauto.
Qed.
Lemma heston_run_values :
  let run g := sde_call Rminus full 0 pace_fn fuel (g, inf) [List.length timeline] timeline in
  let N := List.length timeline in
  (forall g, exists s' xx, run g = Ok (s', xx)) /\
  exists gr kk, on_times timeline (pace_fn timeline) t0 gr kk /\
    (List.length gr <= List.length timeline + List.length (pace_fn timeline))%nat /\
    forall i ix d F r, (i < N)%nat -> inb vp ix -> 0 < bget k ix -> 0 < bget theta ix -> tame2 F -> pair_normal L dw (cx ix) (cy ix) r ->
      (List.length timeline + List.length (pace_fn timeline) <= d)%nat ->
      L d (fun g => F (value_at (run g) i (cx ix)) (value_at (run g) i (cy ix))) =
      itr2 (bget mu ix) (bget sigma ix) r (bget theta ix) (bget k ix) (bget xi ix) (gap gr) (kk i) 0 F (ln (bget x0 ix)) (bget y0 ix).
Proof using HW PERM AM AS AT AK AX BX0 BY0 BM BS BT BK BX HL V0 N0 HF.
  intros run N.
  assert (SI : start_index (List.length timeline) 0 0). { unfold start_index. destruct timeline; [discriminate|]. cbn. lia. }
  set (run0 := fun g => sde_call Rminus (quiet full) 0 pace_fn fuel (g, inf) [List.length timeline] timeline).
  assert (SAME : forall g, outcome (run g) = outcome (run0 g)).
  { intro g. unfold run, run0. rewrite <- quiet_run.
    assert (IS := full_heston_info (T := R) (V := R) (Wd := G) vshape paths dw set_order gi x0 y0 args). fold full in IS.
    assert (X := outcome_same Rminus full _ IS 0 pace_fn fuel g inf inf timeline 0%nat V0 SI HF). unfold full in *. destruct gi; [exact X|reflexivity]. }
  destruct (frun (quiet full) w w heston_total (dw_inc dw) (both (fun ix => ln (bget x0 ix)) (bget y0)) Fs) with (outf := fun x : list nat -> R => x) (pace_fn := pace_fn) (fuel := fuel) (inf := inf) (timeline := timeline) (t0 := t0) as (R1 & gr & kk & R2 & R3 & R4); auto.
  - intros t dt x x' z jx HJ E. destruct (both_cover jx HJ) as (ix & HI & [-> | ->]); unfold Fs.
    + rewrite !(proj1 (both_get _ _ ix HI)). rewrite !E; auto; unfold w, cx, cy; apply comp_inb; auto using PK.
    + rewrite !(proj2 (both_get _ _ ix HI)). rewrite !E; auto; unfold w, cx, cy; apply comp_inb; auto using PK.
  - intros u t t' x u' x' E.
    destruct (heston_next_step dw vshape paths args set_order PERM (quiet full) u t t' x u' x' eq_refl eq_refl eq_refl eq_refl E) as (m & sg & th & ka & xx & z & (p1 & A1 & E1) & (p2 & A2 & E2) & (p3 & A3 & E3) & (p4 & A4 & E4) & (p5 & A5 & E5) & EZ & H).
    unfold dw_inc. rewrite EZ. cbn [fst snd]. split; [reflexivity|]. intros jx HJ. destruct (both_cover jx HJ) as (ix & HI & [-> | ->]); unfold Fs.
    + rewrite (proj1 (both_get _ _ ix HI)). destruct (H ix HI) as [Hx _]. fold addaxis in Hx. fold cx in Hx. fold cy in Hx. rewrite Hx.
      rewrite AM in A1. rewrite AS in A2. injection A1 as <-. injection A2 as <-. rewrite E1, E2. cbn [peval]. ring_simplify. field.
    + rewrite (proj2 (both_get _ _ ix HI)). destruct (H ix HI) as [_ Hy]. fold addaxis in Hy. fold cx in Hy. fold cy in Hy. rewrite Hy.
      rewrite AT in A3. rewrite AK in A4. rewrite AX in A5. injection A3 as <-. injection A4 as <-. injection A5 as <-. rewrite E3, E4, E5. reflexivity.
  - intros t x EI jx HJ. cbn [quiet full full_heston_process ig_init ig_log] in *. fold addaxis in EI. destruct (both_cover jx HJ) as (ix & HI & [-> | ->]);
      destruct (heston_init_inv t addaxis vshape paths x0 y0 x PK EI ix HI) as [H1 H2]; fold cx cy in H1, H2.
    + rewrite (proj1 (both_get _ _ ix HI)). exact H1.
    + rewrite (proj2 (both_get _ _ ix HI)). exact H2.
  - intros t x y EL jx HJ. unfold fin. cbn [ig_log quiet full full_heston_process]. exact (full_let dw set_order gi vshape paths x0 y0 args t x y EL jx HJ).
  - split.
    { intro g. destruct (R1 g) as (s' & xx & E). assert (X := SAME g). unfold run0 in X. rewrite E in X. destruct (run g) as [[s2 x2]|]; [eauto|discriminate]. }
    exists gr, kk. split; [exact R2|]. split; [exact R3|]. intros i ix d F r Hi HI K0 T0 TF PN Hd.
    destruct R2 as [(GP & _ & _ & GK) _]. destruct (GK i Hi) as [KI _].
    rewrite <- (hgo_law L HL dw (cx ix) (cy ix) (bget mu ix) (bget sigma ix) r (bget theta ix) (bget k ix) (bget xi ix) PN gr K0 T0 F (kk i) TF) with (d := d).
    + apply (proj1 HL). intro g.
      assert (VE : forall jx, inb w jx -> value_at (run g) i jx = fwalk (dw_inc dw) Fs gr (both (fun ix => ln (bget x0 ix)) (bget y0)) (kk i) g jx).
      { intros jx HJ. rewrite <- (R4 g i jx Hi HJ). fold (run0 g). assert (X := SAME g). destruct (run g) as [[s1 x1]|], (run0 g) as [[s2 x2]|]; try discriminate; [|reflexivity].
        unfold outcome, rmap in X. cbn [fst snd] in X. injection X as _ <-. reflexivity. }
      assert (IXX : inb w (cx ix)) by (apply comp_inb; auto using PK). assert (IXY : inb w (cy ix)) by (apply comp_inb; auto using PK).
      rewrite (VE _ IXX), (VE _ IXY).
      assert (W := fgo_walk (dw_inc dw) Fs gr (both (fun ix => ln (bget x0 ix)) (bget y0)) g (kk i) 0). cbn [fwalk gstate Nat.add] in W. rewrite <- W.
      destruct (fgo_hgo dw (cx ix) (cy ix) (bget mu ix) (bget sigma ix) (bget theta ix) (bget k ix) (bget xi ix) Fs gr) with (m := kk i) (n := 0%nat) (x := both (fun ix => ln (bget x0 ix)) (bget y0)) (g := g) as [H1 H2].
      * intros t dt x z. unfold Fs. rewrite (proj1 (both_get _ _ ix HI)). reflexivity.
      * intros t dt x z. unfold Fs. rewrite (proj2 (both_get _ _ ix HI)). reflexivity.
      * destruct (both_get (fun ix => ln (bget x0 ix)) (bget y0) ix HI) as [B1 B2]. rewrite B1, B2 in H1, H2. rewrite <- H1, <- H2. reflexivity.
    + intros j Hj. left. apply GP. lia.
    + lia.
    + lia.
Qed.
End Run.

(** *** the source of a Heston process *)
Lemma heston_source {G} (L : nat -> (G -> R) -> R) normal mvnormal anti corr rho c n paths vshape s :
  pair_source L normal mvnormal anti corr rho c n paths (heston_vshape vshape) s ->
  let addaxis := force_addaxis false vshape in
  (forall g t dt, exists g' z, at_step s g t dt = Ok (g', z) /\ shp z = (sdes_wshape 2 addaxis vshape ++ [paths])%list) /\
  forall ix r, inb (vshape ++ [paths])%list ix -> (forall t, r = heston_corr vshape (c t) ix) ->
    pair_normal L (at_step s) (S_sdes.comp addaxis vshape 0 ix) (S_sdes.comp addaxis vshape 1 ix) r.
Proof.
  intros (HL & NO & MO & HP & HC & EP & HS) addaxis.
  assert (EV : exists v M, heston_vshape vshape = (v ++ [M])%list /\ sdes_wshape 2 addaxis vshape = (v ++ [M])%list /\
    forall ix, inb (vshape ++ [paths])%list ix -> exists q i j p, inb v q /\ (i < j < M)%nat /\ (p < paths)%nat /\
      S_sdes.comp addaxis vshape 0 ix = (q ++ [i; p])%list /\ S_sdes.comp addaxis vshape 1 ix = (q ++ [j; p])%list /\ forall c, heston_corr vshape c ix = c i j).
  { destruct (list_eq_dec Nat.eq_dec vshape []) as [->|NE].
    - exists [], 2%nat. split; [reflexivity|]. split; [reflexivity|]. intros ix HI. cbn [app] in HI. apply (inb_snoc []) in HI. destruct HI as (a & b & -> & HA & HB). inversion HA; subst.
      exists [], 0%nat, 1%nat, b. split; [constructor|]. split; [lia|]. split; [exact HB|]. repeat split.
    - destruct (exists_last NE) as (v & N & ->). exists v, (2*N)%nat. assert (AX : addaxis = false) by (unfold addaxis, force_addaxis; destruct v; reflexivity). rewrite AX.
      split; [|split].
      + unfold heston_vshape. rewrite removelast_last, last_last. destruct v; reflexivity.
      + unfold sdes_wshape. rewrite removelast_last, last_last. rewrite (Nat.mul_comm N). reflexivity.
      + intros ix HI. apply inb_snoc in HI. destruct HI as (a & p & -> & HA & Hp). apply inb_snoc in HA. destruct HA as (q & j & -> & HQ & HJ).
        exists q, j, (N + j)%nat, p. unfold S_sdes.comp. rewrite !removelast_last, !last_last. rewrite Nat.mul_0_l, Nat.mul_1_l, Nat.add_0_l.
        split; [exact HQ|]. split; [lia|]. split; [exact Hp|]. split; [reflexivity|]. split; [reflexivity|].
        intro f. unfold heston_corr. rewrite !removelast_last, !last_last. destruct v; reflexivity. }
  destruct EV as (v & M & E1 & E2 & EI). rewrite E1 in *. rewrite E2. specialize (HP v M eq_refl). unfold source_dw, source_setup, given_dw in HS. destruct anti; subst paths.
  - split.
    + intros g t dt. destruct (odd_halves normal mvnormal NO MO v M n c corr rho HC s HS) as (s0 & _ & H). destruct (H g t dt) as (g' & z & z' & _ & A & B & _). eauto.
    + intros ix r HI HR. destruct (EI ix HI) as (q & i & j & p & HQ & HIJ & Hp & -> & -> & EC).
      apply (odd_pair L HL normal mvnormal NO MO v M n c corr rho HP HC q i j r HQ HIJ); auto. intro t. rewrite <- EC. symmetry. apply HR.
  - split.
    + intros g t dt. destruct (wiener_total normal mvnormal NO MO v M n c corr rho HC s HS g t dt) as (g' & z & A & B). eauto.
    + intros ix r HI HR. destruct (EI ix HI) as (q & i & j & p & HQ & HIJ & Hp & -> & -> & EC).
      apply (wiener_pair L HL normal mvnormal NO MO v M n c corr rho HP HC q i j r HQ HIJ); auto. intro t. rewrite <- EC. symmetry. apply HR.
Qed.
