(** Lemmas on the Heston processes. *)
From Coq Require Import String List Arith Bool ZArith Reals Lra Lia Permutation.
From Verif Require Import Base BaseOrd BaseNum BaseArr M_paths S_paths S_run L_ord L_paths8
  M_sde S_sde S_sdes L_sde L_sde2 L_sde3 L_sde4 L_pack L_sim L_sdes L_sdes2 M_presets S_presets L_presets L_presets2.
Import ListNotations.

Section H.
Context {T : Type} {TO : TOrd T} {TL : TOrdLaws T} {V : Type} {NV : Num V} {Wd : Type}.
Variable tsub : T -> T -> V.
Variables (dw : Wd -> T -> V -> res (Wd * arr V)) (set_order : list string -> list string)
  (gi : bool) (vshape : list nat) (paths : nat) (x0 y0 : arr V) (args : dict (param T V)).
Let addaxis := force_addaxis false vshape.
Let w := sdes_wshape 2 addaxis vshape ++ [paths].
Let vp := vshape ++ [paths].
Notation full := (full_heston_process dw set_order gi vshape paths x0 y0 args).
Notation short := (heston_process dw set_order gi vshape paths x0 y0 args).

Lemma h_pk : packable addaxis vshape.
Proof. apply packable_force. Qed.

(** first component of the working array *)
Lemma unpack_first (X : arr V) : shp X = w -> exists a, unpack1 addaxis (last vshape 0) X 0 = Ok a /\ shp a = vp /\
  forall ix, inb vp ix -> dat a ix = dat X (comp addaxis vshape 0 ix).
Proof.
  intro S. destruct (unpack1_ok addaxis vshape paths h_pk 2 X 0 S ltac:(lia)) as (a & E & SA & HA). eauto.
Qed.

Lemma full_result Y : exists a b, full_heston_result vshape paths Y = Ok (a, b) /\ shp a = vp /\ shp b = vp /\
  forall ix, inb vp ix -> dat a ix = nexp (Y (comp addaxis vshape 0 ix)) /\ dat b ix = Y (comp addaxis vshape 1 ix).
Proof.
  unfold full_heston_result. fold addaxis w.
  destruct (unpack_ok addaxis vshape paths h_pk 2 (mkArr w Y) eq_refl) as (xs & E & L & HX).
  rewrite E. cbn [rbind]. destruct xs as [|a [|b [|]]]; try discriminate.
  destruct (HX 0 a eq_refl) as [SA DA]. destruct (HX 1 b eq_refl) as [SB DB].
  do 2 eexists. split; [reflexivity|]. split; [exact SA|]. split; [exact SB|].
  intros ix HI. simpl. rewrite DA, DB by auto. auto.
Qed.

Definition RYh (y1 y2 : buf V) : Prop := forall ix, inb vp ix -> y2 ix = y1 (comp addaxis vshape 0 ix).

Lemma short_let t x y : ig_let short t x = Ok y -> forall ix, inb vp ix -> y ix = x (comp addaxis vshape 0 ix).
Proof.
  cbn [heston_process ig_let]. fold addaxis w vp. intro H.
  destruct (unpack_first (mkArr w x) eq_refl) as (a & E & SA & DA). rewrite E in H. cbn [rbind] in H.
  apply assign_ok in H. destruct H as [-> _]. intros ix HI. rewrite bget_self by (rewrite SA; auto). apply DA; auto.
Qed.
Lemma short_let_ok t x : exists y, ig_let short t x = Ok y.
Proof.
  cbn [heston_process ig_let]. fold addaxis w vp.
  destruct (unpack_first (mkArr w x) eq_refl) as (a & E & SA & DA). rewrite E. cbn [rbind].
  rewrite assign_can by (rewrite SA; apply can_refl). eauto.
Qed.
Lemma full_let t x y : ig_let full t x = Ok y -> forall ix, inb w ix -> y ix = x ix.
Proof.
  cbn [full_heston_process ig_let]. unfold sde_let. fold addaxis w. intro H.
  apply assign_ok in H. destruct H as [-> _]. intros ix HI. rewrite bget_self by auto. reflexivity.
Qed.
Lemma full_let_ok t x : exists y, ig_let full t x = Ok y.
Proof.
  cbn [full_heston_process ig_let]. unfold sde_let. fold addaxis w. rewrite assign_can by apply can_refl. eauto.
Qed.

Lemma full_follows : follows tsub full short eq RYh eq.
Proof.
  split.
  - intros t x H. exists x. split; auto.
  - intros wd t t' x ? wd' x' <- H. exists x'. split; auto.
  - intros t x ? y1 <- H. destruct (short_let_ok t x) as (y2 & E). exists y2. split; auto.
    intros ix HI. rewrite (full_let _ _ _ H) by (apply comp_inb; auto; apply h_pk). exact (short_let _ _ _ E ix HI).
  - intros iv i1 ? <-. reflexivity.
  - intros iv wd x ? i1 ? i1' <- <- H. exists i1'. split; auto.
  - intros i1 ? <-. reflexivity.
  - intros iv i1 ? i1' <- H. exists i1'. split; auto.
Qed.
Lemma short_follows : follows tsub short full eq (fun a b => RYh b a) eq.
Proof.
  split.
  - intros t x H. exists x. split; auto.
  - intros wd t t' x ? wd' x' <- H. exists x'. split; auto.
  - intros t x ? y1 <- H. destruct (full_let_ok t x) as (y2 & E). exists y2. split; auto.
    intros ix HI. rewrite (full_let _ _ _ E) by (apply comp_inb; auto; apply h_pk). exact (short_let _ _ _ H ix HI).
  - intros iv i1 ? <-. reflexivity.
  - intros iv wd x ? i1 ? i1' <- <- H. exists i1'. split; auto.
  - intros i1 ? <-. reflexivity.
  - intros iv i1 ? i1' <- H. exists i1'. split; auto.
Qed.

Notation same_price := (same_price vshape paths).
Lemma RYh_price Y y : RYh Y y -> same_price (Some Y) (Some y).
Proof.
  intro H. destruct (full_result Y) as (X & Z & E & SX & SZ & HD).
  exists Y, y, X, Z. split; [reflexivity|]. split; [reflexivity|]. split; [exact E|]. split; [exact SX|].
  intros ix HI. rewrite SX in HI. destruct (HD ix HI) as [-> _]. simpl. rewrite H by auto. reflexivity.
Qed.

Theorem full_to_short i0 pace_fn fuel wd inf (timeline : list T) p0 s' xx :
  valid_timeline timeline -> start_index (length timeline) i0 p0 ->
  length timeline + length (pace_fn timeline) <= fuel ->
  sde_call tsub full i0 pace_fn fuel (wd, inf) [length timeline] timeline = Ok (s', xx) ->
  exists xx2, sde_call tsub short i0 pace_fn fuel (wd, inf) [length timeline] timeline = Ok (s', xx2) /\
    Forall2 same_price xx xx2.
Proof.
  intros V0 SI HF H. destruct s' as [wd' inf'].
  destruct (integ_sim tsub full short eq RYh eq full_follows i0 pace_fn fuel wd inf inf timeline p0 wd' inf' xx
    V0 SI HF eq_refl H) as (inf2 & xx2 & E & <- & F).
  exists xx2. split; auto. eapply Forall2_imp; [|exact F]. intros a b (y1 & y2 & -> & -> & HY).
  apply RYh_price. exact HY.
Qed.
Theorem short_to_full i0 pace_fn fuel wd inf (timeline : list T) p0 s' xx2 :
  valid_timeline timeline -> start_index (length timeline) i0 p0 ->
  length timeline + length (pace_fn timeline) <= fuel ->
  sde_call tsub short i0 pace_fn fuel (wd, inf) [length timeline] timeline = Ok (s', xx2) ->
  exists xx, sde_call tsub full i0 pace_fn fuel (wd, inf) [length timeline] timeline = Ok (s', xx) /\
    Forall2 same_price xx xx2.
Proof.
  intros V0 SI HF H. destruct s' as [wd' inf'].
  destruct (integ_sim tsub short full eq (fun a b => RYh b a) eq short_follows i0 pace_fn fuel wd inf inf timeline p0 wd' inf' xx2
    V0 SI HF eq_refl H) as (inf2 & xx & E & <- & F).
  exists xx. split; auto. clear H E. induction F as [|a b l l' (y1 & y2 & -> & -> & HY) F IH]; constructor; auto.
  apply RYh_price. exact HY.
Qed.

(** starting value *)
Theorem full_start i0 pace_fn fuel wd inf (timeline : list T) p0 t0 wd' inf' xx :
  valid_timeline timeline -> start_index (length timeline) i0 p0 -> nth_error timeline p0 = Some t0 ->
  length timeline + length (pace_fn timeline) <= fuel ->
  sde_call tsub full i0 pace_fn fuel (wd, inf) [length timeline] timeline = Ok ((wd', inf'), xx) ->
  exists Y X Z, nth_error xx p0 = Some (Some Y) /\ full_heston_result vshape paths Y = Ok (X, Z) /\
    shp X = vp /\ shp Z = vp /\
    forall ix, inb vp ix -> dat X ix = nexp (nlog (bget x0 ix)) /\ dat Z ix = bget y0 ix.
Proof.
  intros V0 SI N0 HF H.
  apply (sde_call_run _ _ _ _ _ _ _ _ p0 t0) in H; auto.
  destruct (run_start full (next_step tsub full) _ _ _ _ _ _ _ _ V0 SI N0 H) as (t & x & y & ET & E1 & E2 & E3).
  destruct (full_result (fin full y)) as (X & Z & E & SX & SZ & HD).
  exists (fin full y), X, Z. split; [exact E3|]. split; [exact E|]. split; [exact SX|]. split; [exact SZ|].
  intros ix HI. destruct (HD ix HI) as [-> ->]. unfold fin. cbn [full_heston_process ig_log].
  assert (HL := full_let _ _ _ E2). rewrite !HL by (apply comp_inb; auto; apply h_pk).
  unfold logi. cbn [full_heston_process ig_log]. cbn [full_heston_process ig_init] in E1. fold addaxis in E1.
  destruct (heston_init_inv t addaxis vshape paths x0 y0 x h_pk E1 ix HI) as [-> ->]. auto.
Qed.
Theorem short_start i0 pace_fn fuel wd inf (timeline : list T) p0 t0 wd' inf' xx :
  valid_timeline timeline -> start_index (length timeline) i0 p0 -> nth_error timeline p0 = Some t0 ->
  length timeline + length (pace_fn timeline) <= fuel ->
  sde_call tsub short i0 pace_fn fuel (wd, inf) [length timeline] timeline = Ok ((wd', inf'), xx) ->
  exists y, nth_error xx p0 = Some (Some y) /\
    forall ix, inb vp ix -> dat (heston_result vshape paths y) ix = nexp (nlog (bget x0 ix)).
Proof.
  intros V0 SI N0 HF H.
  apply (sde_call_run _ _ _ _ _ _ _ _ p0 t0) in H; auto.
  destruct (run_start short (next_step tsub short) _ _ _ _ _ _ _ _ V0 SI N0 H) as (t & x & y & ET & E1 & E2 & E3).
  exists (fin short y). split; [exact E3|].
  intros ix HI. unfold fin. cbn [heston_process ig_log]. unfold heston_result. simpl.
  rewrite (short_let _ _ _ E2) by exact HI.
  unfold logi. cbn [heston_process ig_log]. cbn [heston_process ig_init] in E1. fold addaxis in E1.
  destruct (heston_init_inv t addaxis vshape paths x0 y0 x h_pk E1 ix HI) as [-> _]. auto.
Qed.
End H.

(** *** No invalid values in the Heston processes *)
Section N.
Context {Wd : Type}.
#[local] Existing Instance Num_nan | 0.
Notation V := (option R).
Variables (dw : Wd -> R -> V -> res (Wd * arr V)) (set_order : list string -> list string)
  (gi : bool) (vshape : list nat) (paths : nat) (x0 y0 : arr V) (args : dict (param R V)).
Let addaxis := force_addaxis false vshape.
Let w := sdes_wshape 2 addaxis vshape ++ [paths].
Let vp := vshape ++ [paths].
Notation full := (full_heston_process dw set_order gi vshape paths x0 y0 args).
Notation short := (heston_process dw set_order gi vshape paths x0 y0 args).

Lemma full_no_nan i0 pace_fn fuel wd inf timeline p0 t0 wd' inf' xx :
  valid_args args vp ["mu"; "sigma"; "theta"; "k"; "xi"]%string -> valid_dw dw w ->
  valid_arr vp (amap nlog x0) -> valid_arr vp y0 ->
  valid_timeline timeline -> start_index (length timeline) i0 p0 -> nth_error timeline p0 = Some t0 ->
  length timeline + length (pace_fn timeline) <= fuel ->
  sde_call nan_sub full i0 pace_fn fuel (wd, inf) [length timeline] timeline = Ok ((wd', inf'), xx) ->
  length xx = length timeline /\
  forall i b, nth_error xx i = Some b -> exists Y X Z, b = Some Y /\
    full_heston_result vshape paths Y = Ok (X, Z) /\ valid_arr vp X /\ valid_arr vp Z.
Proof.
  intros VA VD VX VY V0 SI N0 HF H.
  apply (sde_call_run _ _ _ _ _ _ _ _ p0 t0) in H; auto.
  assert (LX : length xx = length timeline).
  { destruct H as (? & ? & ? & ? & ? & _ & _ & _ & _ & _ & _ & L & _). auto. }
  split; auto.
  destruct (run_inv full (next_step nan_sub full) (fun _ _ x => forall ix, inb w ix -> x ix <> None) (fun _ => True)
    timeline (pace_fn timeline) i0 p0 t0 wd wd' xx) as [OUT _]; auto.
  - intros u t x _ _ EI ix HI. cbn [full_heston_process ig_init] in EI. unfold logi. cbn [full_heston_process ig_log].
    destruct (comp_cover addaxis vshape paths (packable_force _ _) 2 ix HI) as (kk & ix' & HK & HI' & ->).
    destruct (heston_init_inv t addaxis vshape paths x0 y0 x (packable_force _ _) EI ix' HI') as [H1 H2].
    destruct kk as [|[|]]; [| |lia].
    + rewrite H1. apply VX; auto.
    + rewrite H2. apply VY; auto.
  - intros u t x t' u' x' HP ST ix HI. unfold next_step in ST.
    exact (heston_next_valid dw vshape paths args set_order full u t t' x u' x' eq_refl eq_refl eq_refl eq_refl VA VD HP ST ix HI).
  - intros i b Ni. assert (HL : i < length timeline) by (rewrite <- LX; apply nth_error_Some; congruence).
    destruct (nth_error timeline i) as [ti|] eqn:Et; [|apply nth_error_None in Et; lia].
    destruct (OUT i ti Et) as (t & x & u & y' & _ & HP & EL & EX). rewrite EX in Ni. injection Ni as <-.
    destruct (full_result vshape paths (fin full y')) as (X & Z & E & SX & SZ & HD).
    exists (fin full y'), X, Z. split; auto. split; auto.
    assert (HY : forall ix k, (k < 2) -> inb vp ix -> y' (comp addaxis vshape k ix) <> None).
    { intros ix k Hk HI. assert (CI := comp_inb addaxis vshape paths (packable_force _ _) 2 k ix Hk HI).
      rewrite (full_let dw set_order gi vshape paths x0 y0 args t x y' EL _ CI). apply HP; auto. }
    split; intros ix HI; rewrite bget_self by (rewrite ?SX, ?SZ; auto); destruct (HD ix HI) as [DX DZ].
    + rewrite DX. assert (Q := HY ix 0 ltac:(lia) HI). fold addaxis. unfold fin. cbn [full_heston_process ig_log].
      destruct (y' _); simpl; congruence.
    + rewrite DZ. apply (HY ix 1); auto.
Qed.

Lemma short_no_nan i0 pace_fn fuel wd inf timeline p0 t0 wd' inf' xx :
  valid_args args vp ["mu"; "sigma"; "theta"; "k"; "xi"]%string -> valid_dw dw w ->
  valid_arr vp (amap nlog x0) -> valid_arr vp y0 ->
  valid_timeline timeline -> start_index (length timeline) i0 p0 -> nth_error timeline p0 = Some t0 ->
  length timeline + length (pace_fn timeline) <= fuel ->
  sde_call nan_sub short i0 pace_fn fuel (wd, inf) [length timeline] timeline = Ok ((wd', inf'), xx) ->
  length xx = length timeline /\
  forall i b, nth_error xx i = Some b -> exists y, b = Some y /\ valid_arr vp (heston_result vshape paths y).
Proof.
  intros VA VD VX VY V0 SI N0 HF H.
  destruct (short_to_full nan_sub dw set_order gi vshape paths x0 y0 args i0 pace_fn fuel wd inf timeline p0 _ _ V0 SI HF H)
    as (xx1 & H1 & F).
  destruct (full_no_nan i0 pace_fn fuel wd inf timeline p0 t0 wd' inf' xx1 VA VD VX VY V0 SI N0 HF H1) as [L HH].
  assert (LF := Forall2_len _ _ _ F). split; [congruence|].
  intros i b Ni. destruct (nth_error xx1 i) as [b1|] eqn:E1.
  2:{ apply nth_error_None in E1. assert (i < length xx) by (apply nth_error_Some; congruence). lia. }
  destruct (Forall2_nth _ _ _ i b1 F E1) as (b' & Eb & (Y & y & X & Z & -> & -> & E & [AS AD])).
  rewrite Ni in Eb. injection Eb as ->. exists y. split; auto. intros ix HI.
  destruct (HH i _ E1) as (Y' & X' & Z' & EY & E' & VX' & _). injection EY as <-. rewrite E in E'. injection E' as <- <-.
  assert (SX : shp X = vp). { rewrite AS. reflexivity. }
  specialize (VX' ix HI). rewrite bget_self in VX' by (rewrite SX; auto). rewrite bget_self by auto.
  rewrite <- AD by (rewrite SX; auto). exact VX'.
Qed.
End N.
