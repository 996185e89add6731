(** Invariants along runs, initial values, and simulation between two integrators. *)
From Coq Require Import String List Arith Bool ZArith Lia Sorting.Sorted.
From Verif Require Import Base BaseOrd BaseNum BaseArr M_paths S_paths S_run L_ord L_paths8 M_sde S_sde L_sde L_sde2.
Import ListNotations.

Section Inv.
Context {T : Type} {TO : TOrd T} {TL : TOrdLaws T} {V : Type} {NV : Num V} {Wd I : Type}.
Variable ig : integ T V Wd I.
Variable step : Wd -> T -> T -> buf V -> Wd -> buf V -> Prop.

Lemma chain_times wd t x todo wd' l : chain step wd t x todo wd' l ->
  map (fun e => fst (fst e)) l = t :: todo /\ hd_error l = Some (t, x, wd).
Proof using Type. intro C. induction C; simpl; auto. destruct IHC as [-> _]. auto. Qed.

Lemma chain_inv (P : Wd -> T -> buf V -> Prop) :
  (forall wd t x t' wd' x', P wd t x -> step wd t t' x wd' x' -> P wd' t' x') ->
  forall wd t x todo wd' l, chain step wd t x todo wd' l -> P wd t x ->
    (forall t1 x1 w1, In (t1, x1, w1) l -> P w1 t1 x1) /\ (exists t1 x1, P wd' t1 x1).
Proof using Type.
  intros HS wd t x todo wd' l C. induction C as [wd t x | wd t x t' x' wd1 todo wd2 l S C IH]; intro H.
  - split; [|eauto]. intros t1 x1 w1 [E|[]]. injection E as <- <- <-. auto.
  - destruct (IH (HS _ _ _ _ _ _ H S)) as [I1 I2]. split; auto.
    intros t1 x1 w1 [E|E]; auto. injection E as <- <- <-. auto.
Qed.

Definition logi (x : buf V) : buf V := if ig_log ig then fun ix => nlog (x ix) else x.

Lemma Forall2_nth {A B} (P : A -> B -> Prop) l l' i a : Forall2 P l l' -> nth_error l i = Some a ->
  exists b, nth_error l' i = Some b /\ P a b.
Proof using Type.
  intro F. revert i. induction F as [|x y l l' H F IH]; intros [|i] E; simpl in *; try discriminate.
  - injection E as <-. eauto.
  - auto.
Qed.

Lemma run_inv (P : Wd -> T -> buf V -> Prop) (Q : Wd -> Prop) timeline pc i0 p0 t0 wd wd' xx :
  (forall w t x, Q w -> teqb t t0 = true -> ig_init ig t = Ok x -> P w t (logi x)) ->
  (forall w t x t' w' x', P w t x -> step w t t' x w' x' -> P w' t' x') ->
  (forall w t x, P w t x -> Q w) ->
  valid_timeline timeline -> start_index (length timeline) i0 p0 -> nth_error timeline p0 = Some t0 ->
  run_of ig step timeline pc i0 p0 t0 wd wd' xx -> Q wd ->
  (forall i ti, nth_error timeline i = Some ti ->
     exists t x w y, teqb ti t = true /\ P w t x /\ ig_let ig t x = Ok y /\
                     nth_error xx i = Some (Some (fin ig y))) /\ Q wd'.
Proof.
  intros H0 HS HQ V0 SI N0 (gb & gf & wd1 & yb & yf & GB & GF & PB & NB & PF & NF & LX & OF & OB) Q0.
  assert (I0 : In t0 timeline) by (eapply nth_error_In; eauto).
  assert (NT : isnum t0). { destruct V0 as (_ & NT & _). rewrite Forall_forall in NT. auto. }
  assert (LT : p0 < length timeline) by (apply nth_error_Some; congruence).
  assert (PS : forall rv g tl w w' ys, grid_spec rv timeline pc t0 g -> pass_of ig step tl g w w' ys -> Q w ->
     Forall2 (fun ti y => exists t x w, teqb ti t = true /\ P w t x /\ ig_let ig t x = Ok y) tl ys /\ Q w').
  { intros rv g tl w w' ys G (t & todo & x & l & -> & EI & C & F) Qw.
    destruct (grid_head _ _ _ _ _ NT (InT_In _ _ NT I0) G) as (s & g' & E & Es). injection E as <- <-.
    destruct (chain_inv P HS _ _ _ _ _ _ C (H0 _ _ _ Qw Es EI)) as [C1 (t1 & x1 & C2)].
    split; [|eapply HQ; eauto]. eapply Forall2_imp; [|exact F].
    intros ti y (t2 & x2 & w2 & Hi & E & L). exists t2, x2, w2. auto. }
  assert (Q1 : Q wd1).
  { destruct (Z.eq_dec i0 0) as [E|E].
    - rewrite NB; auto.
    - destruct (PS _ _ _ _ _ _ GB (PB E) Q0); auto. }
  assert (DF : goes_forth (length timeline) i0 \/ ~ goes_forth (length timeline) i0).
  { unfold goes_forth. lia. }
  split.
  - intros i ti Ni. assert (Li : i < length timeline) by (apply nth_error_Some; congruence).
    assert (CASE : (goes_forth (length timeline) i0 /\ p0 <= i) \/
                   (goes_back i0 /\ (i < p0 \/ ~ goes_forth (length timeline) i0) /\ i <= p0)).
    { unfold goes_back, goes_forth, start_index in *. lia. }
    destruct CASE as [[GFo Hi]|[GBk [Hi1 Hi2]]].
    + destruct (PS _ _ _ _ _ _ GF (PF GFo) Q1) as [F _].
      assert (E : nth_error (skipn p0 timeline) (i - p0) = Some ti).
      { rewrite <- Ni. rewrite <- (firstn_skipn p0 timeline) at 2.
        rewrite nth_error_app2; rewrite firstn_length; [f_equal; lia|lia]. }
      destruct (Forall2_nth _ _ _ _ _ F E) as (y & Ey & t & x & w & E1 & E2 & E3).
      exists t, x, w, y. repeat split; auto.
      specialize (OF GFo _ _ Ey). replace (p0 + (i - p0)) with i in OF by lia. exact OF.
    + destruct (PS _ _ _ _ _ _ GB (PB GBk) Q0) as [F _].
      assert (E : nth_error (rev (firstn (p0 + 1) timeline)) (p0 - i) = Some ti).
      { rewrite (nth_error_nth' _ t0) by (rewrite rev_length, firstn_length; lia).
        rewrite rev_nth; rewrite firstn_length; [|lia].
        replace (Nat.min (p0 + 1) (length timeline) - S (p0 - i)) with i by lia.
        rewrite <- Ni. symmetry. rewrite <- (firstn_skipn (p0 + 1) timeline) at 1.
        rewrite nth_error_app1 by (rewrite firstn_length; lia).
        apply nth_error_nth'. rewrite firstn_length; lia. }
      destruct (Forall2_nth _ _ _ _ _ F E) as (y & Ey & t & x & w & E1 & E2 & E3).
      exists t, x, w, y. repeat split; auto.
      destruct (OB GBk _ _ Ey) as [_ OB']; [destruct Hi1; [left; lia|auto]|].
      replace (p0 - (p0 - i)) with i in OB' by lia. exact OB'.
  - destruct DF as [DF|DF].
    + destruct (PS _ _ _ _ _ _ GF (PF DF) Q1); auto.
    + rewrite NF; auto.
Qed.

(** the output at the starting point *)
Lemma run_start timeline pc i0 p0 t0 wd wd' xx :
  valid_timeline timeline -> start_index (length timeline) i0 p0 -> nth_error timeline p0 = Some t0 ->
  run_of ig step timeline pc i0 p0 t0 wd wd' xx ->
  exists t x y, teqb t0 t = true /\ ig_init ig t = Ok x /\ ig_let ig t (logi x) = Ok y /\
                nth_error xx p0 = Some (Some (fin ig y)).
Proof.
  intros V0 SI N0 (gb & gf & wd1 & yb & yf & GB & GF & PB & NB & PF & NF & LX & OF & OB).
  assert (I0 : In t0 timeline) by (eapply nth_error_In; eauto).
  assert (NT : isnum t0). { destruct V0 as (_ & NT & _). rewrite Forall_forall in NT. auto. }
  assert (LT : p0 < length timeline) by (apply nth_error_Some; congruence).
  assert (PS : forall rv g tl' w w' ys, grid_spec rv timeline pc t0 g -> pass_of ig step (t0 :: tl') g w w' ys ->
     exists t x y, teqb t0 t = true /\ ig_init ig t = Ok x /\ ig_let ig t (logi x) = Ok y /\ nth_error ys 0 = Some y).
  { intros rv g tl' w w' ys G (t & todo & x & l & -> & EI & C & F).
    destruct (grid_head _ _ _ _ _ NT (InT_In _ _ NT I0) G) as (s & g' & E & Es). injection E as <- <-.
    destruct (Forall2_nth _ _ _ 0 t0 F eq_refl) as (y & Ey & t2 & x2 & w2 & Hi & E2 & L).
    destruct (chain_times _ _ _ _ _ _ C) as [CT CH]. destruct G as [SO _]. rewrite <- CT in SO.
    destruct l as [|e l]; [discriminate|]. injection CH as ->.
    assert (E3 : (t2, x2, w2) = (t, logi x, w)).
    { destruct Hi as [Hi|Hi]; [symmetry; exact Hi|]. exfalso. simpl in SO. inversion_clear SO as [|? ? _ FF].
      rewrite Forall_forall in FF. specialize (FF t2). apply (before_irrefl rv t t2).
      - eapply teq_trans; eauto.
      - apply FF. apply in_map_iff. exists (t2, x2, w2). auto. }
    injection E3 as -> -> ->. exists t, x, y. repeat split; auto. }
  destruct (nth_error_split _ _ N0) as (t1 & t2 & ET & L1).
  assert (FN : rev (firstn (p0 + 1) timeline) = t0 :: rev t1).
  { rewrite ET, firstn_app, L1. replace (p0 + 1 - p0) with 1 by lia.
    rewrite firstn_all2 by lia. simpl. rewrite rev_app_distr. reflexivity. }
  assert (SN : skipn p0 timeline = t0 :: t2).
  { rewrite ET, skipn_app, L1, Nat.sub_diag. rewrite skipn_all2 by lia. reflexivity. }
  rewrite FN in PB. rewrite SN in PF.
  assert (DF : goes_forth (length timeline) i0 \/ (goes_back i0 /\ ~ goes_forth (length timeline) i0)).
  { unfold goes_forth, goes_back. lia. }
  destruct DF as [DF|[DB DF]].
  - destruct (PS _ _ _ _ _ _ GF (PF DF)) as (t & x & y & E1 & E2 & E3 & E4).
    exists t, x, y. repeat split; auto. specialize (OF DF 0 y E4). rewrite Nat.add_0_r in OF. exact OF.
  - destruct (PS _ _ _ _ _ _ GB (PB DB)) as (t & x & y & E1 & E2 & E3 & E4).
    exists t, x, y. repeat split; auto. destruct (OB DB 0 y E4) as [_ O]; auto.
    rewrite Nat.sub_0_r in O. exact O.
Qed.
End Inv.

(** *** Simulation of a run by another one *)
Section Sim.
Context {T : Type} {TO : TOrd T} {S1 X1 Y1 S2 X2 Y2 : Type}.
Variables (cb1 : callbacks T S1 X1 Y1) (cb2 : callbacks T S2 X2 Y2).
Variables (RS : S1 -> S2 -> Prop) (RX : X1 -> X2 -> Prop) (RY : Y1 -> Y2 -> Prop).

Record simulates : Prop := {
  sim_begin : forall iv s1 s2 t s1' xw1, RS s1 s2 -> cb_begin cb1 iv s1 [t] = Ok (s1', xw1) ->
      exists s2' xw2, cb_begin cb2 iv s2 [t] = Ok (s2', xw2) /\ RS s1' s2' /\ Forall2 RX xw1 xw2;
  sim_next : forall iv s1 s2 t t' x1 x2 s1' tt x1', RS s1 s2 -> RX x1 x2 ->
      cb_next cb1 iv s1 [t] t' [x1] = Ok (s1', tt, x1') ->
      exists s2' tt2 x2', cb_next cb2 iv s2 [t] t' [x2] = Ok (s2', tt2, x2') /\ RS s1' s2' /\ RX x1' x2';
  sim_store : forall iv s1 s2 i t x1 x2 s1' y1, RS s1 s2 -> RX x1 x2 ->
      cb_store cb1 iv s1 i t x1 = Ok (s1', y1) ->
      exists s2' y2, cb_store cb2 iv s2 i t x2 = Ok (s2', y2) /\ RS s1' s2' /\ RY y1 y2;
  sim_end : forall iv s1 s2 s1', RS s1 s2 -> cb_end cb1 iv s1 = Ok s1' ->
      exists s2', cb_end cb2 iv s2 = Ok s2' /\ RS s1' s2' }.

Hypothesis SIM : simulates.

Lemma steps_sim rv tl grid todo : forall i s1 s2 t x1 x2 s1' ys1, RS s1 s2 -> RX x1 x2 ->
  ref_steps cb1 rv tl grid i s1 t x1 todo = Ok (s1', ys1) ->
  exists s2' ys2, ref_steps cb2 rv tl grid i s2 t x2 todo = Ok (s2', ys2) /\ RS s1' s2' /\ Forall2 RY ys1 ys2.
Proof using SIM.
  induction todo as [|t' todo IH]; intros i s1 s2 t x1 x2 s1' ys1 HS HX H; cbn [ref_steps] in *.
  - injection H as <- <-. eauto.
  - destruct (cb_next cb1 _ _ _ _ _) as [[[s1a tt] x1a]|] eqn:EN; [|discriminate].
    destruct (sim_next SIM _ _ _ _ _ _ _ _ _ _ HS HX EN) as (s2a & tt2 & x2a & -> & HS2 & HX2).
    destruct (memT t' tl).
    + destruct (cb_store cb1 _ _ _ _ _) as [[s1b y1]|] eqn:ES; [|discriminate].
      destruct (sim_store SIM _ _ _ _ _ _ _ _ _ HS2 HX2 ES) as (s2b & y2 & -> & HS3 & HY).
      destruct (ref_steps cb1 rv tl grid (S i) s1b t' x1a todo) as [[s1c yc]|] eqn:ER; [|discriminate].
      injection H as <- <-. destruct (IH _ _ _ _ _ _ _ _ HS3 HX2 ER) as (s2c & yc2 & -> & HS4 & HF).
      exists s2c, (y2 :: yc2). auto.
    + eapply IH; eauto.
Qed.

Lemma pass_sim rv tl grid s1 s2 s1' ys1 : RS s1 s2 ->
  ref_pass cb1 rv tl grid s1 = Ok (s1', ys1) ->
  exists s2' ys2, ref_pass cb2 rv tl grid s2 = Ok (s2', ys2) /\ RS s1' s2' /\ Forall2 RY ys1 ys2.
Proof using SIM.
  intros HS H. unfold ref_pass in *. destruct grid as [|t todo]; [discriminate|].
  destruct (cb_begin cb1 _ _ _) as [[s1a xw1]|] eqn:EB; [|discriminate].
  destruct (sim_begin SIM _ _ _ _ _ _ HS EB) as (s2a & xw2 & -> & HS2 & HX).
  destruct HX as [|x1 x2 xs1 xs2 HX _]; [discriminate|].
  destruct (cb_store cb1 _ _ _ _ _) as [[s1b y1]|] eqn:ES; [|discriminate].
  destruct (sim_store SIM _ _ _ _ _ _ _ _ _ HS2 HX ES) as (s2b & y2 & -> & HS3 & HY).
  destruct (ref_steps cb1 _ _ _ _ _ _ _ _) as [[s1c yc]|] eqn:ER; [|discriminate].
  destruct (steps_sim _ _ _ _ _ _ _ _ _ _ _ _ HS3 HX ER) as (s2c & yc2 & -> & HS4 & HF).
  destruct (cb_end cb1 _ _) as [s1d|] eqn:EE; [|discriminate].
  destruct (sim_end SIM _ _ _ _ HS4 EE) as (s2d & -> & HS5).
  injection H as <- <-. exists s2d, (y2 :: yc2). auto.
Qed.

Lemma Forall2_rev' {A B} (P : A -> B -> Prop) l l' : Forall2 P l l' -> Forall2 P (rev l) (rev l').
Proof using Type. intro F. induction F; simpl; auto. apply Forall2_app; auto. Qed.

Theorem run_sim timeline i0 p0 gb gf s1 s2 s1' ys1 : RS s1 s2 ->
  ref_run cb1 timeline i0 p0 gb gf s1 = Ok (s1', ys1) ->
  exists s2' ys2, ref_run cb2 timeline i0 p0 gb gf s2 = Ok (s2', ys2) /\ RS s1' s2' /\ Forall2 RY ys1 ys2.
Proof using SIM.
  intros HS H. unfold ref_run in *.
  set (bk := negb (i0 =? 0)%Z) in *.
  set (fo := ((i0 =? 0) || negb ((i0 =? -1) || (i0 =? Z.of_nat (length timeline) - 1)))%Z) in *.
  destruct (if bk then _ else _) as [[s1a yb]|] eqn:EB in H; [|discriminate].
  destruct (if fo then _ else _) as [[s1b yf]|] eqn:EF in H; [|discriminate].
  injection H as <- <-.
  assert (exists s2a yb2, (if bk then ref_pass cb2 true (rev (firstn (p0 + 1) timeline)) gb s2 else Ok (s2, []))
            = Ok (s2a, yb2) /\ RS s1a s2a /\ Forall2 RY yb yb2) as (s2a & yb2 & -> & HS2 & HB).
  { destruct bk; [eapply pass_sim; eauto|]. injection EB as <- <-. eauto. }
  assert (exists s2b yf2, (if fo then ref_pass cb2 false (skipn p0 timeline) gf s2a else Ok (s2a, []))
            = Ok (s2b, yf2) /\ RS s1b s2b /\ Forall2 RY yf yf2) as (s2b & yf2 & -> & HS3 & HF).
  { destruct fo; [eapply pass_sim; eauto|]. injection EF as <- <-. eauto. }
  do 2 eexists. split; [reflexivity|]. split; auto.
  destruct fo; [|apply Forall2_rev'; auto]. apply Forall2_app; auto. apply Forall2_rev'.
  destruct HB; simpl; auto.
Qed.
End Sim.
