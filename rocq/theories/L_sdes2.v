(** Runs of systems: starting values; equations that do not refer to the others. *)
From Coq Require Import String List Arith Bool ZArith Lia Reals Lra Permutation.
From Verif Require Import Base BaseOrd BaseNum BaseArr M_paths S_paths S_run L_ord
  M_sde S_sde S_sdes L_sde L_sde2 L_sde3 L_sde4 L_pack L_sim L_sdes M_presets.
Import ListNotations.

Lemma packable_force a0 vshape : packable (force_addaxis a0 vshape) vshape.
Proof. unfold packable, force_addaxis. destruct vshape; [auto|right; discriminate]. Qed.

Section Init.
Context {T : Type} {V : Type} {NV : Num V}.
Variables (q : nat) (addaxis : bool) (vshape : list nat) (paths : nat).
Let vp := vshape ++ [paths].
Let w := sdes_wshape q addaxis vshape ++ [paths].
Hypothesis PK : packable addaxis vshape.
Hypothesis HQ : 0 < q.

Lemma sdes_init_ok x0 (t : T) : x0_fits q vp x0 ->
  exists X, sdes_init (V := V) q addaxis vshape paths w x0 t = Ok X /\
    forall k ix, k < q -> inb vp ix -> X (comp addaxis vshape k ix) = bget (x0_comp x0 k) ix.
Proof.
  intros HF. unfold sdes_init.
  set (x0s := match shp x0 with [] => repeat x0 q | _ => iter0 x0 end).
  assert (G : length x0s = q /\ (forall k, k < q -> nth_error x0s k = Some (x0_comp x0 k)) /\
    Forall (fun x => can (shp x) vp = true) x0s).
  { unfold x0s, x0_comp. destruct HF as [E|(s & E & C)].
    - rewrite E. split; [apply repeat_length|]. split.
      + intros k Hk. apply nth_error_repeat; auto.
      + apply Forall_forall. intros x HI. apply repeat_spec in HI. subst. rewrite E. reflexivity.
    - rewrite E. unfold iter0. rewrite E. split; [rewrite map_length, seq_length; auto|]. split.
      + intros k Hk. rewrite nth_error_map.
        rewrite (nth_error_nth' _ 0) by (rewrite seq_length; auto). rewrite seq_nth by auto. reflexivity.
      + apply Forall_forall. intros x HI. apply in_map_iff in HI. destruct HI as (k & <- & _). exact C. }
  destruct G as (L & N & F).
  destruct (pack_ok addaxis vshape paths PK x0s) as (X0 & EP & SP & HP); auto.
  { intros E. rewrite E in L. simpl in L. lia. }
  rewrite EP. cbn [rbind]. rewrite L in SP. fold w in SP.
  rewrite assign_can by (rewrite SP; apply can_refl). eexists. split; [reflexivity|].
  intros k ix Hk HI. rewrite bget_self by (rewrite SP; apply comp_inb; auto).
  apply HP; auto.
Qed.
End Init.

Section Start.
Context {T : Type} {TO : TOrd T} {TL : TOrdLaws T} {V : Type} {NV : Num V} {Wd I : Type}.
Variable tsub : T -> T -> V.

Lemma sdes_start q a0 set_order ids src log sde gi vshape paths x0 args
      i0 pace_fn fuel wd inf (timeline : list T) p0 t0 wd' inf' xx :
  let addaxis := force_addaxis a0 vshape in
  let w := sdes_wshape q addaxis vshape ++ [paths] in
  let vp := vshape ++ [paths] in
  0 < q -> x0_fits q vp x0 ->
  valid_timeline timeline -> start_index (length timeline) i0 p0 -> nth_error timeline p0 = Some t0 ->
  length timeline + length (pace_fn timeline) <= fuel ->
  sde_call tsub (mk_sdes (I := I) (Wd := Wd) q a0 set_order ids src log sde gi vshape paths x0 args)
           i0 pace_fn fuel (wd, inf) [length timeline] timeline = Ok ((wd', inf'), xx) ->
  exists Y cs, nth_error xx p0 = Some (Some Y) /\
    sdes_result log q addaxis vshape w Y = Ok cs /\ length cs = q /\
    forall k c, nth_error cs k = Some c -> shp c = vp /\ forall ix, inb vp ix ->
      dat c ix = if log then nexp (nexp (nlog (bget (x0_comp x0 k) ix))) else bget (x0_comp x0 k) ix.
Proof.
  intros addaxis w vp HQ HF V0 SI N0 HFu H.
  assert (PK : packable addaxis vshape) by apply packable_force.
  set (ig := mk_sdes q a0 set_order ids src log sde gi vshape paths x0 args) in *.
  apply (sde_call_run _ _ _ _ _ _ _ _ p0 t0) in H; auto.
  destruct (run_start ig (next_step tsub ig) _ _ _ _ _ _ _ _ V0 SI N0 H) as (t & x & y & ET & E1 & E2 & E3).
  destruct (sdes_init_ok (T := T) q addaxis vshape paths PK HQ x0 t HF) as (X & EX & HX).
  cbn [ig mk_sdes ig_init] in E1. fold addaxis w in E1. fold w in EX. rewrite EX in E1. injection E1 as <-.
  cbn [ig mk_sdes ig_let] in E2. unfold sde_let in E2. fold addaxis w in E2.
  rewrite assign_can in E2 by apply can_refl. injection E2 as <-.
  set (Y := fin ig (bget (mkArr w (logi ig X)))).
  destruct (unpack_ok addaxis vshape paths PK q (mkArr w (if log then fun ix => nexp (Y ix) else Y)) eq_refl)
    as (cs & EC & LC & HC).
  exists Y, cs. split; [exact E3|]. split; [exact EC|]. split; [exact LC|].
  intros k c Ec. destruct (HC k c Ec) as [SC DC]. split; [exact SC|]. intros ix HI. rewrite DC by auto. simpl.
  assert (Hk : k < q) by (rewrite <- LC; apply nth_error_Some; congruence).
  unfold Y, fin, logi. cbn [ig mk_sdes ig_log].
  assert (CI := comp_inb addaxis vshape paths PK q k ix Hk HI). fold w in CI.
  destruct log; rewrite bget_self by exact CI; simpl; rewrite HX; auto.
Qed.
End Start.

Section Unc.
Context {Wd I I1 : Type}.
Open Scope R_scope.

Lemma uncoupled_run q a0 set_order ids src log sde gi vshape paths x0 args i src1 sde1 gi1 x0i
      i0 pace_fn fuel wd (inf : I) (inf1 : I1) (timeline : list R) p0 wd' inf' xx :
  let addaxis := force_addaxis a0 vshape in
  let w := (sdes_wshape q addaxis vshape ++ [paths])%list in
  let vp := (vshape ++ [paths])%list in
  (forall l, Permutation (set_order l) l) -> NoDup ids -> (i < q)%nat ->
  (forall id wd t dt wd' z, In id ids -> src id wd t dt = Ok (wd', z) ->
     exists z1, src1 id wd t dt = Ok (wd', z1) /\ can (shp z1) vp = true /\
                forall ix, inb vp ix -> bget z1 ix = bget z (comp addaxis vshape i ix)) ->
  uncoupled i args sde sde1 ->
  x0_fits q vp x0 -> can (shp x0i) vp = true ->
  (forall ix, inb vp ix -> bget x0i ix = bget (x0_comp x0 i) ix) ->
  valid_timeline timeline -> start_index (length timeline) i0 p0 ->
  (length timeline + length (pace_fn timeline) <= fuel)%nat ->
  sde_call Rminus (mk_sdes (I := I) (Wd := Wd) q a0 set_order ids src log sde gi vshape paths x0 args)
           i0 pace_fn fuel (wd, inf) [length timeline] timeline = Ok ((wd', inf'), xx) ->
  exists inf1' xx1,
    sde_call Rminus (mk_sde ids src1 log sde1 gi1 vshape paths x0i args)
             i0 pace_fn fuel (wd, inf1) [length timeline] timeline = Ok ((wd', inf1'), xx1) /\
    Forall2 (fun a b => exists Y y cs c, a = Some Y /\ b = Some y /\
       sdes_result log q addaxis vshape w Y = Ok cs /\ nth_error cs i = Some c /\ shp c = vp /\
       forall ix, inb vp ix -> dat c ix = if log then exp (y ix) else y ix) xx xx1.
Proof.
  intros addaxis w vp PERM ND Hi HSRC UNC HF CX HX0 V0 SI HFu H.
  assert (PK : packable addaxis vshape) by apply packable_force.
  set (ig := mk_sdes q a0 set_order ids src log sde gi vshape paths x0 args) in *.
  set (ig1 := mk_sde (I := I1) ids src1 log sde1 gi1 vshape paths x0i args).
  set (RX := fun X x : buf R => forall ix, inb vp ix -> x ix = X (comp addaxis vshape i ix)).
  assert (CI : forall ix, inb vp ix -> inb w (comp addaxis vshape i ix)) by (intros; apply comp_inb; auto).
  assert (FO : follows Rminus ig ig1 RX RX (fun _ _ => True)).
  { split; try (intros; exact Logic.I).
    - intros t X EX. destruct (sdes_init_ok (T := R) (V := R) q addaxis vshape paths PK ltac:(lia) x0 t HF) as (X' & EX' & HX').
      cbn [ig mk_sdes ig_init] in EX. fold addaxis w in EX. fold w in EX'. rewrite EX' in EX. injection EX as <-.
      cbn [ig1 mk_sde ig_init]. unfold sde_init. rewrite assign_can by auto. eexists. split; [reflexivity|].
      intros ix HI. unfold logi. cbn [ig mk_sdes ig_log ig1 mk_sde].
      assert (E : X' (comp addaxis vshape i ix) = bget x0i ix) by (rewrite HX' by auto; symmetry; auto).
      destruct log; congruence.
    - intros wd0 t t' X x wd1 X' HR EN.
      apply (uncoupled_next q addaxis vshape paths set_order args sde ig ig1 Rminus i sde1 PK PERM Hi
              eq_refl eq_refl ND eq_refl eq_refl eq_refl HSRC UNC _ _ _ _ _ _ _ HR EN).
    - intros t X x Y HR EL. cbn [ig mk_sdes ig_let ig1 mk_sde] in *. unfold sde_let in *. fold addaxis w in EL.
      rewrite assign_can in * by apply can_refl. injection EL as <-. eexists. split; [reflexivity|].
      intros ix HI. rewrite !bget_self by (try apply CI; exact HI). simpl. apply HR; auto.
    - intros iv wd0 x1 x2 i1 i2 i1' _ _ _. exists i2. split; auto. destruct (ig_getinfo ig1); reflexivity.
    - intros iv i1 i2 i1' _ _. exists i2. split; auto. destruct (ig_getinfo ig1); reflexivity. }
  destruct (integ_sim Rminus ig ig1 RX RX (fun _ _ => True) FO i0 pace_fn fuel wd inf inf1 timeline p0 wd' inf' xx
              V0 SI HFu Logic.I H) as (inf1' & xx1 & E1 & _ & F).
  exists inf1', xx1. split; [exact E1|]. eapply Forall2_imp; [|exact F].
  intros a b (Y & y & -> & -> & HR).
  destruct (unpack_ok addaxis vshape paths PK q (mkArr w (if log then fun ix => exp (fin ig Y ix) else fin ig Y)) eq_refl)
    as (cs & EC & LC & HC).
  destruct (nth_error cs i) as [c|] eqn:Ec; [|apply nth_error_None in Ec; lia].
  destruct (HC i c Ec) as [SC DC].
  exists (fin ig Y), (fin ig1 y), cs, c. split; [reflexivity|]. split; [reflexivity|].
  split; [exact EC|]. split; [exact Ec|]. split; [exact SC|]. intros ix HI. rewrite DC by auto. simpl.
  unfold fin. cbn [ig mk_sdes ig_log ig1 mk_sde]. destruct log; rewrite (HR ix HI); reflexivity.
Qed.
End Unc.
