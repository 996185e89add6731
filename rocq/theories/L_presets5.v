(** Lemmas on the jump counters of jumpdiff_process. *)
From Coq Require Import String List Arith Bool ZArith Reals Lra Lia Sorting.Sorted.
From Verif Require Import Base BaseOrd BaseNum BaseArr M_paths S_paths S_run L_ord L_paths L_paths8
  M_sde S_sde S_sdes L_sde L_sde2 L_sde3 L_sde4 L_pack M_presets S_presets L_presets.
Import ListNotations.

Lemma nth_error_skipn {A} (l : list A) i k : nth_error (skipn i l) k = nth_error l (i + k).
Proof.
  revert i. induction l as [|a l IH]; intros [|i]; simpl; auto.
  destruct k; reflexivity.
Qed.
Lemma skipn_cons {A} (l : list A) i a l' : skipn i l = a :: l' -> nth_error l i = Some a /\ skipn (S i) l = l'.
Proof.
  revert i. induction l as [|b l IH]; intros [|i] H; simpl in *; try discriminate.
  - injection H as <- <-. auto.
  - destruct (IH i H) as [H1 H2]. split; auto.
Qed.

Lemma upd_last {A} (l : list A) n r : 1 < n -> length l = n -> nth_error l (n - 2) = Some r ->
  nth_error (upd l (n - 1) r) (n - 1) = nth_error (upd l (n - 1) r) (n - 2).
Proof.
  intros H L E. rewrite !upd_nth, Nat.eqb_refl. destruct (Nat.eqb_spec (n - 1) (n - 2)); [lia|]. rewrite E.
  destruct (nth_error l (n - 1)) eqn:E1; [reflexivity|]. apply nth_error_None in E1. lia.
Qed.

Section J.
Context {T : Type} {TO : TOrd T} {TL : TOrdLaws T} {V : Type} {NV : Num V} {Wd : Type}.
Variable tsub : T -> T -> V.
Variables (dw dj : Wd -> T -> V -> res (Wd * arr V)) (dn : Wd -> arr V) (vshape : list nat) (paths : nat)
  (x0 : arr V) (args : dict (param T V)).
Let w := vshape ++ [paths].
Notation ig := (jumpdiff_process tsub dw dj (fun wd => Some (dn wd)) true vshape paths x0 args).
Notation cb := (sde_cb tsub ig).

Definition wt (a b : T) (e : T * buf V * Wd) : V := ndiv (ndiv (asum (dn (snd e))) (tsub b a)) (nofnat paths).
Definition rate_add (tl : list T) (k : nat) (seg : list (T * buf V * Wd)) (r : V) : V :=
  match nth_error tl k, nth_error tl (S k) with
  | Some a, Some b => fold_left (fun acc e => nadd acc (wt a b e)) seg r
  | _, _ => r
  end.

Lemma steps_counted rv tl grid todo : forall i wd j t x wd' j' ys, 1 <= i ->
  Forall2 (fun ti t => teqb ti t = true) (skipn i tl) (filter (fun t => memT t tl) todo) ->
  length (jump_rate j) = length tl ->
  ref_steps cb rv tl grid i (wd, j) t x todo = Ok ((wd', j'), ys) ->
  exists l segs, chain (next_step tsub ig) wd t x todo wd' l /\ hd_error l = Some (t, x, wd) /\
    concat segs = List.tl l /\ Forall2 (seg_of tl) (skipn i tl) segs /\
    (forall ix, inb w ix -> jump_count j' ix = fold_left (fun acc e => nadd acc (bget (dn (snd e)) ix)) (List.tl l) (jump_count j ix)) /\
    length (jump_rate j') = length tl /\
    forall k, nth_error (jump_rate j') k =
      if k <? i - 1 then nth_error (jump_rate j) k
      else option_map (rate_add tl k (nth (k - (i - 1)) segs [])) (nth_error (jump_rate j) k).
Proof.
  induction todo as [|t' todo IH]; intros i wd j t x wd' j' ys Hi AL LR H; cbn [ref_steps] in H.
  - injection H as <- <- <-. simpl in AL. inversion AL as [E|]. exists [(t, x, wd)], [].
    split; [constructor|]. split; [reflexivity|]. split; [reflexivity|]. split; [constructor|].
    split; [reflexivity|]. split; [exact LR|]. intro k. destruct (k <? i - 1); auto.
    destruct (nth_error (jump_rate j) k); auto. cbn [option_map]. unfold rate_add.
    replace (nth (k - (i - 1)) [] []) with (@nil (T * buf V * Wd)) by (destruct (k - (i - 1)); reflexivity).
    destruct (nth_error tl k), (nth_error tl (S k)); auto.
  - destruct (cb_next cb _ _ _ _ _) as [[[[wd1 j1] tt] x1]|] eqn:E1; [|discriminate].
    simpl in E1. unfold sde_next in E1. cbn [fst snd] in E1.
    destruct (euler_next tsub ig wd t t' x) as [[wd1' x1']|] eqn:EN; simpl in E1; [|discriminate].
    destruct (jd_info_next _ _ _ _ _ _ _ _) as [j1'|] eqn:EI; simpl in E1; [|discriminate].
    injection E1 as <- <- <- <-.
    unfold jd_info_next in EI. cbn [iv_tt iv_i] in EI.
    destruct (nth_error tl i) as [ti|] eqn:Ti; [|discriminate].
    destruct (nth_error tl (i - 1)) as [ti1|] eqn:Ti1; [|discriminate].
    destruct (nth_error (jump_rate j) (i - 1)) as [r|] eqn:Er; [|discriminate].
    destruct (can _ _); [|discriminate]. injection EI as <-.
    set (e := (t', x1', wd1')).
    set (j1 := mkJ (upd (jump_rate j) (i - 1) (nadd r (wt ti1 ti e))) (fun ix => nadd (jump_count j ix) (bget (dn wd1') ix))).
    assert (L1 : length (jump_rate j1) = length tl) by (simpl; rewrite upd_length; auto).
    assert (R1 : forall k, nth_error (jump_rate j1) k = if i - 1 =? k then Some (nadd r (wt ti1 ti e)) else nth_error (jump_rate j) k).
    { intro k. simpl. rewrite upd_nth. destruct (Nat.eqb_spec (i - 1) k) as [<-|]; auto. rewrite Er. reflexivity. }
    simpl in AL. destruct (memT t' tl) eqn:M.
    + destruct (cb_store cb _ _ _ _ _) as [[[wd2 j2] y]|] eqn:E2; [|discriminate].
      cbn [cb_store sde_cb] in E2. unfold sde_store in E2. cbn [fst snd] in E2.
      destruct (ig_let ig t' x1') as [y'|] eqn:EL; cbn [rbind] in E2; [|discriminate].
      injection E2 as <- <- <-.
      destruct (ref_steps cb rv tl grid (S i) _ t' x1' todo) as [[[wd3 j3] ys3]|] eqn:ER; [|discriminate].
      injection H as <- <- <-.
      inversion AL as [|b ? l1 ? ET AL' EQ]; subst. symmetry in EQ. destruct (skipn_cons _ _ _ _ EQ) as [Nb SK].
      rewrite Ti in Nb. injection Nb as <-. rewrite <- SK in AL'.
      fold e in ER. change (dn wd1') with (dn (snd e)) in ER.
      destruct (IH (S i) wd1' j1 t' x1' wd3 j3 ys3 ltac:(lia) AL' L1 ER) as (l & segs & C & HD & CC & SG & CT & L3 & RT).
      destruct l as [|p l]; [discriminate|]. injection HD as ->. simpl in CC, CT.
      exists ((t, x, wd) :: (t', x1', wd1') :: l), ([e] :: segs).
      split; [econstructor; eauto|]. split; [reflexivity|]. split; [simpl; rewrite CC; reflexivity|].
      split. { rewrite SK in SG. constructor; auto. exists [], e. auto. }
      split. { intros ix HI. rewrite (CT ix HI). reflexivity. }
      split; auto. intro k. rewrite RT. simpl Nat.sub. rewrite Nat.sub_0_r.
      destruct (Nat.ltb_spec k i) as [K1|K1], (Nat.ltb_spec k (i - 1)) as [K2|K2]; try lia.
      * rewrite R1. destruct (Nat.eqb_spec (i - 1) k); [lia|]. auto.
      * assert (k = i - 1) by lia. subst k. rewrite R1, Nat.eqb_refl, Er. simpl.
        unfold rate_add. replace (S (i - 1)) with i by lia. rewrite Ti, Ti1, Nat.sub_diag. reflexivity.
      * rewrite R1. destruct (Nat.eqb_spec (i - 1) k); [lia|]. f_equal. f_equal.
        replace (k - (i - 1)) with (S (k - i)) by lia. reflexivity.
    + fold e in H. change (dn wd1') with (dn (snd e)) in H.
      destruct (IH i wd1' j1 t' x1' wd' j' ys Hi AL L1 H) as (l & segs & C & HD & CC & SG & CT & L3 & RT).
      destruct l as [|p l]; [discriminate|]. injection HD as ->. simpl in CC, CT.
      destruct (skipn i tl) as [|b tl'] eqn:EQ.
      { assert (nth_error (skipn i tl) 0 = Some ti) by (rewrite nth_error_skipn, Nat.add_0_r; auto). rewrite EQ in *. discriminate. }
      destruct segs as [|s ss]; inversion SG as [|? ? ? ? SG1 SG2].
      exists ((t, x, wd) :: (t', x1', wd1') :: l), ((e :: s) :: ss).
      split; [econstructor; eauto|]. split; [reflexivity|]. split; [simpl in *; rewrite CC; reflexivity|].
      split. { constructor; auto. destruct SG1 as (pre & e1 & -> & E1 & E2). exists (e :: pre), e1. auto. }
      split. { intros ix HI. rewrite (CT ix HI). reflexivity. }
      split; auto. intro k. rewrite RT. destruct (Nat.ltb_spec k (i - 1)) as [K2|K2].
      * rewrite R1. destruct (Nat.eqb_spec (i - 1) k); [lia|]. auto.
      * rewrite R1. destruct (Nat.eqb_spec (i - 1) k) as [<-|].
        { rewrite Er. simpl. unfold rate_add. replace (S (i - 1)) with i by lia. rewrite Ti, Ti1, Nat.sub_diag. reflexivity. }
        destruct (k - (i - 1)) as [|m] eqn:EM; [lia|]. reflexivity.
Qed.

Lemma map_nth_error_zero (tl : list T) k : nth_error (map (fun _ => nzero : V) tl) k = option_map (fun _ => nzero) (nth_error tl k).
Proof. apply nth_error_map. Qed.

Lemma pass_counted rv tl grid wd j wd' j' ys :
  StronglySorted (before rv) grid -> StronglySorted (before rv) tl -> (forall t, In t tl -> InT t grid) ->
  ref_pass cb rv tl grid (wd, j) = Ok ((wd', j'), ys) ->
  exists t todo x l, grid = t :: todo /\ ig_init ig t = Ok x /\
    chain (next_step tsub ig) wd t (logi ig x) todo wd' l /\
    jumps_counted tsub w paths dn tl (List.tl l) j'.
Proof.
  intros S1 S2 HI H. unfold ref_pass in H. destruct grid as [|t todo]; [discriminate|].
  destruct (cb_begin cb _ _ _) as [[[wd1 inf1] xw]|] eqn:EB; [|discriminate].
  cbn [cb_begin sde_cb] in EB. unfold sde_begin in EB. cbn [iv_steps iv_tt] in EB.
  destruct tl as [|t1 tl']; [discriminate|].
  destruct (teqb t t && teqb t t1) eqn:EA; [|discriminate].
  destruct (ig_init ig t) as [x|] eqn:EI; cbn [rbind] in EB; [|discriminate]. injection EB as <- <- <-.
  destruct (cb_store cb _ _ _ _ _) as [[[wd2 inf2] y]|] eqn:E2; [|discriminate].
  cbn [cb_store sde_cb] in E2. unfold sde_store in E2. cbn [fst snd] in E2.
  destruct (ig_let ig t _) as [y'|] eqn:EL; cbn [rbind] in E2; [|discriminate]. injection E2 as <- <- <-.
  destruct (ref_steps cb rv _ _ _ _ _ _ _) as [[[wd3 j3] ys3]|] eqn:ER; [|discriminate].
  destruct (cb_end cb _ _) as [[wd4 j4]|] eqn:EE; [|discriminate].
  cbn [cb_end sde_cb] in EE. unfold sde_end in EE. cbn [fst snd ig_getinfo jumpdiff_process ig_info_end] in EE.
  destruct (jd_info_end _ j3) as [j5|] eqn:EF; cbn [rbind] in EE; [|discriminate].
  injection EE as <- <-. injection H as <- <- <-.
  assert (AL := outputs_align rv (t :: todo) (t1 :: tl') S1 S2 HI).
  assert (M : memT t (t1 :: tl') = true).
  { apply memT_spec. apply InT_cons. left. apply andb_true_iff in EA. apply EA. }
  cbn [filter] in AL. rewrite M in AL. inversion AL as [|? ? ? ? _ AL']; subst.
  cbn [ig_getinfo ig_info_store ig_info_begin jumpdiff_process] in ER.
  set (j0 := jd_info_begin _ _) in ER.
  assert (L0 : length (jump_rate j0) = length (t1 :: tl')) by (simpl; rewrite map_length; auto).
  destruct (steps_counted rv (t1 :: tl') (t :: todo) todo 1 wd j0 t (logi ig x) wd3 j3 ys3 (le_n _) AL' L0 ER)
    as (l & segs & C & HD & CC & SG & CT & L3 & RT).
  exists t, todo, x, l. split; auto. split; auto. split; auto.
  set (tl := t1 :: tl') in *.
  assert (LS : length segs = length tl').
  { apply Forall2_len in SG. simpl in SG. auto. }
  assert (RT' : forall i a b seg, nth_error tl i = Some a -> nth_error tl (S i) = Some b -> nth_error segs i = Some seg ->
     nth_error (jump_rate j3) i = Some (fold_left (fun acc e => nadd acc (wt a b e)) seg nzero)).
  { intros i a b seg Ea Eb Es. rewrite RT. change (1 - 1) with 0. rewrite Nat.sub_0_r. cbn [Nat.ltb Nat.leb].
    assert (E0 : nth_error (jump_rate j0) i = Some nzero). { change (jump_rate j0) with (map (fun _ => nzero : V) tl). rewrite map_nth_error_zero, Ea. reflexivity. }
    rewrite E0. cbn [option_map]. unfold rate_add. rewrite Ea, Eb.
    rewrite (nth_error_nth _ _ _ Es). reflexivity. }
  unfold jd_info_end in EF. cbn [iv_tt] in EF. rewrite L3 in EF.
  destruct (Nat.ltb_spec 1 (length tl)) as [L1|L1].
  - destruct (nth_error (jump_rate j3) (length tl - 2)) as [r|] eqn:Er; [|discriminate]. injection EF as <-.
    unfold jumps_counted. cbn [jump_count jump_rate]. split; [exact CT|]. split; [rewrite upd_length; auto|].
    split. { intros _. change (length tl' - 0) with (length tl - 1). apply upd_last; auto. }
    exists segs. split; auto. split; auto. intros i a b seg Ea Eb Es.
    change (length tl' - 0) with (length tl - 1). rewrite upd_nth. destruct (Nat.eqb_spec (length tl - 1) i) as [<-|].
    { exfalso. assert (S (length tl - 1) < length tl) by (apply nth_error_Some; congruence). lia. }
    eapply RT'; eauto.
  - injection EF as <-. split; [exact CT|]. split; auto. split; [lia|]. exists segs. split; auto.
Qed.

(** The counters are those of the last pass made. *)
Theorem run_counted i0 pace_fn fuel wd inf (timeline : list T) p0 t0 wd' j' xx :
  valid_timeline timeline -> start_index (length timeline) i0 p0 -> nth_error timeline p0 = Some t0 ->
  length timeline + length (pace_fn timeline) <= fuel ->
  sde_call tsub ig i0 pace_fn fuel (wd, inf) [length timeline] timeline = Ok ((wd', j'), xx) ->
  exists rv grid wd1 t todo x l,
    (rv = false <-> goes_forth (length timeline) i0) /\ (~ (goes_back i0 /\ goes_forth (length timeline) i0) -> wd1 = wd) /\
    grid_spec rv timeline (pace_fn timeline) t0 grid /\ grid = t :: todo /\ ig_init ig t = Ok x /\
    chain (next_step tsub ig) wd1 t (logi ig x) todo wd' l /\
    jumps_counted tsub w paths dn (if rv then rev (firstn (p0 + 1) timeline) else skipn p0 timeline) (List.tl l) j'.
Proof.
  intros V0 SI N0 HF H. rewrite (sde_call_ref _ _ _ _ _ _ _ p0 t0) in H by auto.
  destruct (call_refines_grid cb i0 (ig_getinfo ig) pace_fn fuel (wd, inf) timeline p0 t0 _ _ eq_refl eq_refl
    (sde_nonadaptive _ _) (sde_begin_fills _ _) V0 SI N0 HF) as (GB & GF & _ & _).
  set (gb := run_grid true timeline (pace_fn timeline) t0) in *.
  set (gf := run_grid false timeline (pace_fn timeline) t0) in *.
  destruct (timeline_grid _ _ _ _ _ _ V0 N0 GB GF) as [[SB IB] [SF IF]].
  unfold ref_run in H.
  assert (EBK : forall b, b = negb (i0 =? 0)%Z -> if b then goes_back i0 else ~ goes_back i0).
  { intros b ->. unfold goes_back. destruct (Z.eqb_spec i0 0); simpl; lia. }
  assert (EFO : forall b, b = ((i0 =? 0) || negb ((i0 =? -1) || (i0 =? Z.of_nat (length timeline) - 1)))%Z ->
     if b then goes_forth (length timeline) i0 else ~ goes_forth (length timeline) i0).
  { intros b ->. unfold goes_forth.
    destruct (Z.eqb_spec i0 0), (Z.eqb_spec i0 (-1)), (Z.eqb_spec i0 (Z.of_nat (length timeline) - 1)); simpl; lia. }
  specialize (EBK _ eq_refl). specialize (EFO _ eq_refl).
  set (bk := negb (i0 =? 0)%Z) in *.
  set (fo := ((i0 =? 0) || negb ((i0 =? -1) || (i0 =? Z.of_nat (length timeline) - 1)))%Z) in *.
  destruct (if bk then _ else _) as [[[wd1 inf1] yb]|] eqn:EB in H; [|discriminate].
  destruct (if fo then _ else _) as [[[wd2 inf2] yf]|] eqn:EF in H; [|discriminate].
  simpl in H. injection H as <- <- <-. destruct fo.
  - destruct (pass_counted false (skipn p0 timeline) gf wd1 inf1 wd2 inf2 yf (proj1 GF) SF IF EF) as (t & todo & x & l & E1 & E2 & E3 & E4).
    exists false, gf, wd1, t, todo, x, l. split; [tauto|]. split; [|auto].
    intro HN. destruct bk; [tauto|]. injection EB as <- _ _. reflexivity.
  - injection EF as -> -> <-. destruct bk.
    + destruct (pass_counted true (rev (firstn (p0 + 1) timeline)) gb wd inf wd2 inf2 yb (proj1 GB) SB IB EB) as (t & todo & x & l & E1 & E2 & E3 & E4).
      exists true, gb, wd, t, todo, x, l. split; [split; [discriminate|tauto]|]. split; auto.
    + exfalso. unfold goes_forth, goes_back in *. lia.
Qed.
End J.

(** in real numbers: rate * length of the interval * paths = total number of jumps *)
Lemma rate_total {A} (f : A -> R) c (p : nat) (l : list A) : c <> 0%R -> (0 < p)%nat ->
  (fold_left (fun a e => a + f e / c / INR p) l 0 * c * INR p = Rlsum (map f l))%R.
Proof.
  intros Hc Hp. assert (HP : INR p <> 0%R) by (apply not_0_INR; lia).
  assert (G : forall acc, (fold_left (fun a e => a + f e / c / INR p) l acc * c * INR p = acc * c * INR p + Rlsum (map f l))%R).
  { induction l as [|a l IH]; intro acc; simpl; [ring|]. rewrite IH. field. auto. }
  rewrite G. ring.
Qed.
