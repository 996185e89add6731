(** A run of an integrator that follows that of another one. *)
From Coq Require Import String List Arith Bool ZArith Lia Sorting.Sorted.
From Verif Require Import Base BaseOrd BaseNum BaseArr M_paths S_paths S_run L_ord L_paths8
  M_sde S_sde L_sde L_sde2 L_sde3.
Import ListNotations.

Section S.
Context {T : Type} {TO : TOrd T} {TL : TOrdLaws T} {V : Type} {NV : Num V} {Wd I1 I2 : Type}.
Variable tsub : T -> T -> V.
Variables (ig1 : integ T V Wd I1) (ig2 : integ T V Wd I2).
Variables (RX RY : buf V -> buf V -> Prop) (RI : I1 -> I2 -> Prop).

Record follows : Prop := {
  fo_init : forall t x1, ig_init ig1 t = Ok x1 ->
      exists x2, ig_init ig2 t = Ok x2 /\ RX (logi ig1 x1) (logi ig2 x2);
  fo_next : forall wd t t' x1 x2 wd' x1', RX x1 x2 -> euler_next tsub ig1 wd t t' x1 = Ok (wd', x1') ->
      exists x2', euler_next tsub ig2 wd t t' x2 = Ok (wd', x2') /\ RX x1' x2';
  fo_let : forall t x1 x2 y1, RX x1 x2 -> ig_let ig1 t x1 = Ok y1 ->
      exists y2, ig_let ig2 t x2 = Ok y2 /\ RY y1 y2;
  fo_ibegin : forall iv i1 i2, RI i1 i2 ->
      RI (if ig_getinfo ig1 then ig_info_begin ig1 iv i1 else i1) (if ig_getinfo ig2 then ig_info_begin ig2 iv i2 else i2);
  fo_inext : forall iv wd x1 x2 i1 i2 i1', RX x1 x2 -> RI i1 i2 ->
      (if ig_getinfo ig1 then ig_info_next ig1 iv wd x1 i1 else Ok i1) = Ok i1' ->
      exists i2', (if ig_getinfo ig2 then ig_info_next ig2 iv wd x2 i2 else Ok i2) = Ok i2' /\ RI i1' i2';
  fo_istore : forall i1 i2, RI i1 i2 ->
      RI (if ig_getinfo ig1 then ig_info_store ig1 i1 else i1) (if ig_getinfo ig2 then ig_info_store ig2 i2 else i2);
  fo_iend : forall iv i1 i2 i1', RI i1 i2 ->
      (if ig_getinfo ig1 then ig_info_end ig1 iv i1 else Ok i1) = Ok i1' ->
      exists i2', (if ig_getinfo ig2 then ig_info_end ig2 iv i2 else Ok i2) = Ok i2' /\ RI i1' i2' }.

Hypothesis FO : follows.

Lemma follows_simulates :
  simulates (sde_cb tsub ig1) (sde_cb tsub ig2) (fun s1 s2 => fst s1 = fst s2 /\ RI (snd s1) (snd s2)) RX RY.
Proof.
  split; cbn [cb_begin cb_next cb_store cb_end sde_cb].
  - intros iv s1 s2 t s1' xw1 [HS HI] H. unfold sde_begin in *.
    destruct (iv_steps iv) as [|? ?], (iv_tt iv) as [|? ?]; try discriminate.
    destruct (_ && _); [|discriminate].
    destruct (ig_init ig1 t) as [x1|] eqn:E1; cbn [rbind] in H; [|discriminate].
    destruct (fo_init FO t x1 E1) as (x2 & -> & HX). cbn [rbind]. injection H as <- <-.
    do 2 eexists. split; [reflexivity|]. split; [split; [exact HS|apply (fo_ibegin FO); auto]|].
    repeat constructor. exact HX.
  - intros iv s1 s2 t t' x1 x2 s1' tt x1' [HS HI] HX H. unfold sde_next in *.
    destruct (euler_next tsub ig1 (fst s1) t t' x1) as [[wd' y]|] eqn:E; cbn [rbind] in H; [|discriminate].
    destruct (fo_next FO _ _ _ _ _ _ _ HX E) as (x2' & E2 & HX').
    destruct (if ig_getinfo ig1 then _ else _) as [inf|] eqn:EI; cbn [rbind] in H; [|discriminate]. injection H as <- <- <-.
    rewrite <- HS, E2. cbn [rbind].
    destruct (fo_inext FO _ _ _ _ _ _ _ HX HI EI) as (i2' & -> & HI').
    cbn [rbind]. do 3 eexists. split; [reflexivity|]. auto.
  - intros iv s1 s2 i t x1 x2 s1' y1 [HS HI] HX H. unfold sde_store in *.
    destruct (ig_let ig1 t x1) as [y|] eqn:E; cbn [rbind] in H; [|discriminate]. injection H as <- <-.
    destruct (fo_let FO _ _ _ _ HX E) as (y2 & -> & HY). cbn [rbind]. do 2 eexists. split; [reflexivity|].
    split; auto. split; [exact HS|apply (fo_istore FO); auto].
  - intros iv s1 s2 s1' [HS HI] H. unfold sde_end in *.
    destruct (if ig_getinfo ig1 then _ else _) as [inf|] eqn:EI; cbn [rbind] in H; [|discriminate]. injection H as <-.
    destruct (fo_iend FO _ _ _ _ HI EI) as (i2' & -> & HI').
    cbn [rbind]. eexists. split; [reflexivity|]. auto.
Qed.

Theorem integ_sim i0 pace_fn fuel wd inf1 inf2 (timeline : list T) p0 wd' inf1' xx1 :
  valid_timeline timeline -> start_index (length timeline) i0 p0 ->
  length timeline + length (pace_fn timeline) <= fuel -> RI inf1 inf2 ->
  sde_call tsub ig1 i0 pace_fn fuel (wd, inf1) [length timeline] timeline = Ok ((wd', inf1'), xx1) ->
  exists inf2' xx2,
    sde_call tsub ig2 i0 pace_fn fuel (wd, inf2) [length timeline] timeline = Ok ((wd', inf2'), xx2) /\
    RI inf1' inf2' /\
    Forall2 (fun a b => exists y1 y2, a = Some (fin ig1 y1) /\ b = Some (fin ig2 y2) /\ RY y1 y2) xx1 xx2.
Proof.
  intros V0 SI HF HI H.
  assert (LT : p0 < length timeline) by (unfold start_index in SI; lia).
  destruct (nth_error timeline p0) as [t0|] eqn:N0; [|apply nth_error_None in N0; lia].
  rewrite (sde_call_ref tsub ig1 _ _ _ _ _ p0 t0) in H by auto.
  rewrite (sde_call_ref tsub ig2 _ _ _ _ _ p0 t0) by auto.
  destruct (ref_run (sde_cb tsub ig1) _ _ _ _ _ _) as [[s1' ys1]|] eqn:E1; [|discriminate].
  cbn [rmap fst snd] in H. injection H as -> <-.
  destruct (run_sim _ _ _ _ _ follows_simulates timeline i0 p0 _ _ (wd, inf1) (wd, inf2) _ _ (conj eq_refl HI) E1)
    as ([wd2 inf2'] & ys2 & -> & [HS HI2] & HF2).
  simpl in HS. subst wd2. exists inf2'. cbn [rmap fst snd]. eexists. split; [reflexivity|]. split; [exact HI2|].
  clear -HF2. induction HF2; simpl; constructor; eauto.
Qed.
End S.

(** *** Steps that agree through a map of indices, with the same order of terms *)
Section Step.
Context {T : Type} {TO : TOrd T} {V : Type} {NV : Num V} {Wd I1 I2 : Type}.
Variable tsub : T -> T -> V.
Variables (ig1 : integ T V Wd I1) (ig2 : integ T V Wd I2).
Variable phi : list nat -> list nat.   (* index of ig2 -> index of ig1 *)
Notation w1 := (ig_w ig1).
Notation w2 := (ig_w ig2).

(** values that agree through [phi], and fit in the second working array *)
Definition agree (a1 a2 : arr V) : Prop :=
  can (shp a2) w2 = true /\ forall ix, inb w2 ix -> bget a2 ix = bget a1 (phi ix).
Definition dagree (d1 d2 : dict (arr V)) : Prop :=
  Forall2 (fun p q => fst p = fst q /\ agree (snd p) (snd q)) d1 d2.

Lemma dagree_keys d1 d2 : dagree d1 d2 -> keys d1 = keys d2.
Proof. induction 1 as [|[k1 a1] [k2 a2] d1 d2 [E _] F IH]; simpl in *; congruence. Qed.
Lemma dagree_lookup d1 d2 k a1 : dagree d1 d2 -> lookup k d1 = Some a1 ->
  exists a2, lookup k d2 = Some a2 /\ agree a1 a2.
Proof.
  induction 1 as [|[k1 b1] [k2 b2] d1 d2 [E A] F IH]; simpl in *; [discriminate|]. subst.
  destruct (String.eqb k k2); [|auto]. intro H; injection H as ->. eauto.
Qed.

Hypothesis HSRC : forall id wd t dt wd' z1, In id (ig_ids ig1) -> ig_src ig1 id wd t dt = Ok (wd', z1) ->
  exists z2, ig_src ig2 id wd t dt = Ok (wd', z2) /\ agree z1 z2.

Lemma eval_sources_agree ids : incl ids (ig_ids ig1) -> forall wd t dt wd' d1,
  eval_sources ig1 ids wd t dt = Ok (wd', d1) ->
  exists d2, eval_sources ig2 ids wd t dt = Ok (wd', d2) /\ dagree d1 d2.
Proof.
  induction ids as [|id ids IH]; intros HI wd t dt wd' d1 H; cbn [eval_sources] in *.
  - injection H as <- <-. exists []. split; constructor.
  - destruct (ig_src ig1 id wd t dt) as [[wa z1]|] eqn:E; cbn [rbind] in H; [|discriminate].
    destruct (eval_sources ig1 ids wa t dt) as [[wb db]|] eqn:E2; cbn [rbind] in H; [|discriminate].
    injection H as <- <-.
    destruct (HSRC id wd t dt wa z1 (HI id (or_introl eq_refl)) E) as (z2 & -> & AG). cbn [rbind].
    destruct (IH (fun k Hk => HI k (or_intror Hk)) _ _ _ _ _ E2) as (d2 & -> & DA). cbn [rbind].
    eexists. split; [reflexivity|]. constructor; auto.
Qed.

Lemma euler_sum_agree A1 : forall A2 dz1 dz2 acc1 acc2 s1, dagree A1 A2 -> dagree dz1 dz2 -> agree acc1 acc2 ->
  euler_sum acc1 A1 dz1 = Ok s1 -> exists s2, euler_sum acc2 A2 dz2 = Ok s2 /\ agree s1 s2.
Proof.
  induction A1 as [|[k a1] A1 IH]; intros A2 dz1 dz2 acc1 acc2 s1 DA DZ AC H; inversion DA as [|? q ? A2' HH DA']; subst;
    cbn [euler_sum] in *.
  - injection H as <-. eauto.
  - destruct q as [k2 a2]. simpl in HH. destruct HH as [<- [C2 G2]]. cbn [euler_sum].
    destruct (lookup k dz1) as [z1|] eqn:EL; [|discriminate].
    destruct (dagree_lookup _ _ _ _ DZ EL) as (z2 & -> & [CZ GZ]).
    destruct (aop nmul a1 z1) as [p1|] eqn:E1; cbn [rbind] in H; [|discriminate].
    destruct (aop nadd acc1 p1) as [c1|] eqn:E2; cbn [rbind] in H; [|discriminate].
    destruct (aop_ok nmul a2 z2 w2 C2 CZ) as (p2 & E3 & CP). rewrite E3. cbn [rbind].
    destruct AC as [CA GA].
    destruct (aop_ok nadd acc2 p2 w2 CA CP) as (c2 & E4 & CC). rewrite E4. cbn [rbind].
    apply (IH A2' dz1 dz2 c1 c2 s1); auto. split; auto. intros ix HX.
    rewrite (aop_get _ _ _ _ ix E4), (aop_get _ _ _ _ ix E3), (aop_get _ _ _ _ _ E2), (aop_get _ _ _ _ _ E1).
    rewrite GA, G2, GZ by auto. reflexivity.
Qed.

Hypothesis HPHI : forall ix, inb w2 ix -> inb w1 (phi ix).
Hypothesis HIDS : ig_ids ig2 = ig_ids ig1.

Lemma euler_next_agree wd t t' x1 x2 wd' x1' :
  (forall A1, ig_A ig1 t (mkArr w1 x1) = Ok A1 -> exists A2, ig_A ig2 t (mkArr w2 x2) = Ok A2 /\ dagree A1 A2) ->
  (forall ix, inb w2 ix -> x2 ix = x1 (phi ix)) ->
  euler_next tsub ig1 wd t t' x1 = Ok (wd', x1') ->
  exists x2', euler_next tsub ig2 wd t t' x2 = Ok (wd', x2') /\ forall ix, inb w2 ix -> x2' ix = x1' (phi ix).
Proof.
  intros HA HX H. unfold euler_next in *.
  destruct (ig_A ig1 t _) as [A1|] eqn:EA; cbn [rbind] in H; [|discriminate].
  destruct (HA A1 eq_refl) as (A2 & -> & DA). cbn [rbind].
  unfold dZ in *. rewrite HIDS.
  destruct (eval_sources ig1 _ wd t _) as [[wa dz1]|] eqn:ED; cbn [rbind] in H; [|discriminate].
  destruct (eval_sources_agree (ssort (ig_ids ig1)) (fun k => proj1 (ssort_In _ k)) _ _ _ _ _ ED) as (dz2 & -> & DZ).
  cbn [rbind].
  destruct (euler_sum _ A1 dz1) as [s1|] eqn:ES; cbn [rbind] in H; [|discriminate].
  destruct (euler_sum_agree A1 A2 dz1 dz2 (ascalar nzero) (ascalar nzero) s1 DA DZ) as (s2 & -> & [CS GS]).
  { split; [apply can_nil|reflexivity]. } { auto. }
  cbn [rbind].
  destruct (aop nadd (mkArr w1 x1) s1) as [r1|] eqn:ER; cbn [rbind] in H; [|discriminate].
  destruct (aop_ok nadd (mkArr w2 x2) s2 w2 (can_refl _) CS) as (r2 & ER2 & CR). rewrite ER2. cbn [rbind].
  destruct (assign w1 r1) as [y1|] eqn:EY; cbn [rbind] in H; [|discriminate]. injection H as <- <-.
  rewrite assign_can by auto. cbn [rbind]. eexists. split; [reflexivity|]. intros ix HI.
  apply assign_ok in EY. destruct EY as [-> _].
  rewrite (aop_get _ _ _ _ ix ER2), (aop_get _ _ _ _ _ ER), GS by auto.
  rewrite (bget_self (mkArr w2 x2)) by auto. rewrite (bget_self (mkArr w1 x1)) by (apply HPHI; auto).
  simpl. rewrite HX by auto. reflexivity.
Qed.
End Step.
