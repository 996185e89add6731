(** Refinement: a run of the engine (depth 2, steps not shortened) is the
    reference recursion of [S_run]. *)
From Coq Require Import List ZArith Bool Lia Sorting.Sorted.
From Verif Require Import Base BaseOrd M_paths S_paths S_run L_ord L_paths L_paths2 L_paths3 L_paths4 L_paths5 L_paths6 L_paths7.
Import ListNotations.

Section L.
Context {T : Type} {TO : TOrd T} {TL : TOrdLaws T} {S X Y : Type}.
Notation event := (event T X Y).
Notation st_t := (st_t T S Y).

Lemma snd_wbind {A B} (m : @W T X Y A) (f : A -> @W T X Y B) :
  snd (wbind m f) = match snd m with Ok a => snd (f a) | Err e => Err e end.
Proof. destruct m as [tr [a|e]]; simpl; auto. destruct (f a); auto. Qed.
Lemma snd_wlift {A} (ev : A -> list event) (m : res A) : snd (wlift ev m) = m.
Proof. destruct m; auto. Qed.

Fixpoint writes (view : nat -> nat) (i : nat) (ys : list Y) (xx : list (option Y)) : list (option Y) :=
  match ys with
  | [] => xx
  | y :: ys' => writes view (Datatypes.S i) ys' (upd xx (view i) (Some y))
  end.

Lemma memT_InT (t : T) l : memT t l = true <-> InT t l.
Proof.
  unfold memT, InT. rewrite existsb_exists. split; intros [s H]; exists s; tauto.
Qed.

Section Pass.
Variable cb : callbacks T S X Y.
Variable rv : bool.
Variable tt steps : list T.
Variable view : nat -> nat.

Lemma main_loop_exact : nonadaptive cb ->
  forall todo fuel (st : st_t) i t x, linv rv tt i t todo -> endinv tt i todo -> i <= length tt ->
  length todo <= fuel ->
  (forall u, In u todo -> memT u tt = memT u (skipn i tt)) ->
  match ref_steps cb rv tt steps i (st_s st) t x todo with
  | Ok (s', ys) => exists inf,
      snd (main_loop cb rv tt steps view fuel st i t t todo [t] [x]) =
      Ok (mkSt s' (writes view i ys (st_xx st)) inf) /\ length ys = length tt - i
  | Err e => snd (main_loop cb rv tt steps view fuel st i t t todo [t] [x]) = Err e
  end.
Proof.
  intro NA. induction todo as [|t' rest IH]; intros fuel st i t x LI EI Hi HF HM.
  - simpl. destruct LI as (_ & _ & _ & HI & _).
    assert (E : skipn i tt = []).
    { destruct (skipn i tt) as [|u l] eqn:E; auto. exfalso. destruct (HI u (or_introl eq_refl)) as [_ H].
      apply InT_nil in H; auto. }
    assert (i = length tt).
    { apply (f_equal (@length T)) in E. rewrite skipn_length in E. simpl in E. lia. }
    subst i. exists (st_info st). split; [|lia].
    destruct fuel; simpl; rewrite Nat.ltb_irrefl; simpl; destruct st; auto.
  - assert (NE : skipn i tt <> []).
    { intro E. specialize (EI t' ltac:(discriminate)). rewrite E in EI. apply InT_nil in EI; auto. }
    destruct (nth_error tt i) as [ti|] eqn:Nti.
    2: { exfalso. apply NE. apply skipn_all2. apply nth_error_None in Nti. exact Nti. }
    assert (Li : i < length tt) by (apply nth_error_Some; congruence).
    destruct fuel as [|fuel]; [simpl in HF; lia|].
    assert (Nt : teqb t t = true) by (destruct LI as (_ & Nt & _); exact Nt).
    assert (Nt' : teqb t' t' = true).
    { destruct LI as (_ & _ & F & _). inversion F; auto. }
    assert (B : before rv t t').
    { destruct LI as (SS & _). inversion_clear SS as [|? ? _ F]. inversion F; auto. }
    destruct (linv_step rv tt i t t' rest t' ti LI Nti B (or_intror Nt')) as (NB & LT & LF).
    rewrite Nt' in LT, LF. simpl in LT, LF.
    cbn [ref_steps main_loop]. replace (i <? length tt) with true by (symmetry; apply Nat.ltb_lt; auto).
    rewrite Nt. rewrite snd_wbind. cbn [snd wret]. rewrite snd_wbind, snd_wlift.
    change (mkIv steps tt rv i) with (iv rv tt steps i).
    destruct (cb_next cb (iv rv tt steps i) (st_s st) [t] t' [x]) as [[[s1 t''] x1]|e] eqn:EN; [|reflexivity].
    assert (t'' = t') by (eapply NA; eauto). subst t''.
    assert (OK : order_ok rv (last [t] t') t' t' = true).
    { apply order_ok_spec. simpl. auto. }
    rewrite OK. rewrite snd_wbind.
    unfold store_if_reached. rewrite Nti.
    replace (if rv then tltb t' ti else tltb ti t') with false.
    2: { symmetry. unfold before in NB. destruct rv; apply not_true_is_false; auto. }
    assert (MT : memT t' tt = teqb ti t').
    { rewrite HM by (left; auto). rewrite (skipn_cons tt i ti Nti).
      destruct (teqb ti t') eqn:Q.
      - apply memT_InT. exists ti. split; [left; auto|]. apply teq_sym; auto.
      - apply not_true_is_false. intro M. apply memT_InT in M.
        destruct (LF eq_refl) as (SS & _ & _ & HI & _).
        destruct M as (u & Hu & Eu). rewrite (skipn_cons tt i ti Nti) in HI.
        destruct (HI u Hu) as [_ Iu].
        apply (SS_head_notin rv t' rest SS). eapply InT_eq; [apply teq_sym; exact Eu|auto]. }
    rewrite MT. destruct (teqb ti t') eqn:Q.
    + rewrite snd_wbind, snd_wlift. cbn [st_s st_xx st_info].
      destruct (cb_store cb (iv rv tt steps i) s1 i t' x1) as [[s2 y]|e] eqn:ES; [|reflexivity].
      cbn [snd wret st_s st_xx st_info tl app].
      destruct (LT eq_refl) as [_ LI'].
      assert (EI' : endinv tt (i + 1) rest).
      { assert (E := endinv_step rv tt i t' rest t' ti EI Nti). destruct LI as (SS & _ & _ & HI & ST).
        inversion_clear SS as [|? ? SS' _].
        destruct (E SS' ST) as [E1 _]. { intros z Hz. apply HI; auto. }
        rewrite Nt' in E1. apply E1; auto. }
      rewrite <- (Nat.add_1_r i).
      specialize (IH fuel (mkSt s2 (upd (st_xx st) (view i) (Some y)) (bump 1 (st_info st))) (i + 1) t' x1 LI' EI'
                     ltac:(lia) ltac:(simpl in HF; lia)).
      cbn [st_s st_xx st_info] in IH.
      assert (HM' : forall u, In u rest -> memT u tt = memT u (skipn (i + 1) tt)).
      { intros u Hu. rewrite HM by (right; auto). rewrite (skipn_cons tt i ti Nti). unfold memT at 1. simpl.
        replace (teqb u ti) with false; auto. symmetry. apply not_true_is_false. intro Q2.
        destruct LI as (SS & _). inversion_clear SS as [|? ? SS' _].
        apply (SS_head_notin rv t' rest SS'). exists u. split; auto.
        apply teq_sym. eapply teq_trans; [exact Q2 | exact Q]. }
      specialize (IH HM').
      destruct (ref_steps cb rv tt steps (i + 1) s2 t' x1 rest) as [[s3 ys]|e]; [|exact IH].
      destruct IH as (inf & -> & L). exists inf. simpl. rewrite <- (Nat.add_1_r i). split; auto. lia.
    + cbn [snd wret st_s st_xx st_info tl app]. rewrite Nat.add_0_r.
      assert (LI' := LF eq_refl).
      assert (EI' : endinv tt i rest).
      { assert (E := endinv_step rv tt i t' rest t' ti EI Nti). destruct LI as (SS & _ & _ & HI & ST).
        inversion_clear SS as [|? ? SS' _].
        destruct (E SS' ST) as [_ E1]. { intros z Hz. apply HI; auto. }
        rewrite Nt' in E1. apply E1; auto. }
      apply (IH fuel (mkSt s1 (st_xx st) (bump 0 (st_info st))) i t' x1 LI' EI' Hi ltac:(simpl in HF; lia)).
      intros u Hu. apply HM. right; auto.
Qed.

End Pass.

Lemma generate_paths_exact (cb : callbacks T S X Y) rv tt steps view t0 tl0 s0 grid fuel (st : st_t) :
  tt = t0 :: tl0 -> steps = s0 :: grid ->
  nonadaptive cb -> begin_fills cb -> teqb s0 t0 = true ->
  good_pass rv tt steps -> length steps <= Datatypes.S fuel ->
  match ref_pass cb rv tt steps (st_s st) with
  | Ok (s', ys) => exists inf,
      snd (generate_paths cb 2 rv tt steps view fuel st) =
      Ok (mkSt s' (writes view 0 ys (st_xx st)) inf) /\ length ys = length tt
  | Err e => snd (generate_paths cb 2 rv tt steps view fuel st) = Err e
  end.
Proof.
  intros Ett Est NA BF E0 GP HF. unfold ref_pass, generate_paths.
  rewrite snd_wbind, snd_wlift. change (2 - 1) with 1.
  assert (TS : take_steps 1 steps = Ok ([s0], grid)) by (rewrite Est; reflexivity). rewrite TS.
  assert (DM : forall (A : Type) (d : A) f, match steps with [] => d | t :: todo => f t todo end = f s0 grid)
    by (intros; rewrite Est; reflexivity).
  rewrite (DM _ (Err IndexError : res (S * list Y))). clear DM.
  rewrite snd_wbind, snd_wlift.
  change (mkIv steps tt rv 0) with (iv rv tt steps 0).
  destruct (cb_begin cb (iv rv tt steps 0) (st_s st) [s0]) as [[s1 xw]|e] eqn:EB; [|reflexivity].
  assert (LB := BF _ _ _ _ _ EB). destruct xw as [|x [|]]; try discriminate.
  rewrite snd_wbind. cbn [store_initial]. rewrite snd_wbind.
  unfold store_if_reached.
  assert (N0 : nth_error tt 0 = Some t0) by (rewrite Ett; reflexivity). rewrite N0.
  assert (NB : (if rv then tltb s0 t0 else tltb t0 s0) = false).
  { apply not_true_is_false. intro B. destruct rv.
    - apply (before_irrefl true t0 s0); [apply teq_sym; auto | exact B].
    - apply (before_irrefl false t0 s0); [apply teq_sym; auto | exact B]. }
  rewrite NB. rewrite (teq_sym _ _ E0). rewrite snd_wbind, snd_wlift. cbn [st_s st_xx st_info].
  destruct (cb_store cb (iv rv tt steps 0) s1 0 s0 x) as [[s2 y]|e] eqn:ES; [|reflexivity].
  cbn [snd wret st_s st_xx st_info]. rewrite snd_wbind. cbn [Nat.add last].
  destruct GP as (SS & NS & ST & NT & HI & HL).
  assert (NB1 : linv rv tt 1 s0 grid).
  { rewrite Est in SS, NS. rewrite Ett in ST, NT, HI. inversion NS; subst.
    split; [exact SS|]. split; auto. split; auto. simpl.
    inversion_clear ST as [|? ? ST1 ST2]. inversion_clear NT as [|? ? NT1 NT2]. split; auto.
    rewrite Forall_forall in NT2, ST2.
    intros t Ht. split; auto.
    assert (It : InT t (s0 :: grid)) by (apply HI; right; auto).
    apply InT_cons in It. destruct It as [It|It]; auto. exfalso.
    apply (before_irrefl rv t0 t); auto. apply teq_sym. eapply teq_trans; eauto. }
  assert (EI : endinv tt 1 grid).
  { intros d Hd. rewrite Est, Ett in HL. simpl. specialize (HL d ltac:(discriminate)).
    replace (last (s0 :: grid) d) with (last grid d) in HL by (destruct grid; [congruence | reflexivity]).
    apply InT_cons in HL. destruct HL as [HL|HL]; [|rewrite Ett; auto]. exfalso.
    rewrite Est in SS. apply (before_irrefl rv s0 (last grid d)).
    - eapply teq_trans; [exact E0|]. apply teq_sym; auto.
    - apply SS_last; auto. }
  assert (HM : forall u, In u grid -> memT u tt = memT u (skipn 1 tt)).
  { intros u Hu. rewrite Ett. simpl. unfold memT. simpl.
    replace (teqb u t0) with false; auto. symmetry. apply not_true_is_false. intro Q.
    rewrite Est in SS. apply (SS_head_notin rv s0 grid SS). exists u. split; auto.
    eapply teq_trans; [exact E0|]. apply teq_sym; auto. }
  assert (H := main_loop_exact cb rv tt steps view NA grid fuel (mkSt s2 (upd (st_xx st) (view 0) (Some y)) (st_info st)) 1 s0 x
                 NB1 EI ltac:(rewrite Ett; simpl; lia) ltac:(rewrite Est in HF; simpl in HF; lia) HM).
  cbn [st_s st_xx st_info] in H.
  destruct (ref_steps cb rv tt steps 1 s2 s0 x grid) as [[s3 ys]|e].
  - destruct H as (inf & -> & L). cbn [st_s st_xx st_info]. rewrite snd_wbind, snd_wlift. cbn [st_s].
    change (mkIv steps tt rv (length tt)) with (iv rv tt steps (length tt)).
    destruct (cb_end cb (iv rv tt steps (length tt)) s3) as [s4|e]; [|reflexivity].
    cbn [snd wret st_s st_xx st_info]. exists inf. split; auto. rewrite Ett in *. simpl in *. lia.
  - rewrite H. reflexivity.
Qed.

Lemma writes_length view ys : forall i (xx : list (option Y)), length (writes view i ys xx) = length xx.
Proof. induction ys; simpl; intros; auto. rewrite IHys, upd_length; auto. Qed.

Lemma writes_nth_other view ys : forall i (xx : list (option Y)) j,
  (forall k, i <= k < i + length ys -> view k <> j) ->
  nth_error (writes view i ys xx) j = nth_error xx j.
Proof.
  induction ys as [|y ys IH]; simpl; intros i xx j H; auto.
  rewrite IH by (intros; apply H; lia). rewrite upd_nth.
  destruct (Nat.eqb_spec (view i) j) as [E|E]; auto. exfalso. apply (H i); auto. lia.
Qed.

Lemma writes_nth view ys : forall i (xx : list (option Y)) k y,
  (forall a b, i <= a < i + length ys -> i <= b < i + length ys -> view a = view b -> a = b) ->
  (forall a, i <= a < i + length ys -> view a < length xx) ->
  nth_error ys k = Some y -> nth_error (writes view i ys xx) (view (i + k)) = Some (Some y).
Proof.
  induction ys as [|z ys IH]; simpl; intros i xx k y INJ HV Hk; [destruct k; discriminate|].
  destruct k as [|k]; simpl in Hk.
  - injection Hk as ->. rewrite Nat.add_0_r. rewrite writes_nth_other.
    + rewrite upd_nth. rewrite Nat.eqb_refl.
      assert (HL : view i < length xx) by (apply HV; lia).
      destruct (nth_error xx (view i)) eqn:E; auto. apply nth_error_None in E. lia.
    + intros j Hj E. assert (j = i) by (apply INJ; auto; lia). lia.
  - replace (i + Datatypes.S k) with (Datatypes.S i + k) by lia. apply IH; auto.
    + intros; apply INJ; auto; lia.
    + intros; rewrite upd_length; apply HV; lia.
Qed.

(** output entries of a pass, given by positions *)
Lemma back_writes p n (ys : list Y) : length ys = p + 1 -> p < n ->
  writes (fun i => p - i) 0 ys (repeat None n) = map Some (rev ys) ++ repeat None (n - p - 1).
Proof.
  intros L Hp. apply list_eq_nth.
  - rewrite writes_length, app_length, map_length, rev_length, !repeat_length. lia.
  - rewrite writes_length, repeat_length. intros j Hj.
    destruct (Nat.lt_ge_cases j (p + 1)) as [H|H].
    + rewrite nth_error_app1 by (rewrite map_length, rev_length; lia).
      destruct (nth_error ys (p - j)) as [y|] eqn:E; [|apply nth_error_None in E; lia].
      assert (W := writes_nth (fun i => p - i) ys 0 (repeat None n) (p - j) y).
      simpl in W. replace (p - (p - j)) with j in W by lia. rewrite W; auto.
      * rewrite nth_error_map. replace (nth_error (rev ys) j) with (Some y); auto. symmetry.
        rewrite (nth_error_nth' (rev ys) y) by (rewrite rev_length; lia).
        rewrite rev_nth by lia. f_equal. replace (length ys - Datatypes.S j) with (p - j) by lia.
        apply nth_error_nth; auto.
      * intros; lia.
      * intros; rewrite repeat_length; lia.
    + rewrite writes_nth_other by (intros k Hk; simpl in Hk; lia).
      rewrite nth_error_app2 by (rewrite map_length, rev_length; lia).
      rewrite map_length, rev_length, L.
      rewrite !nth_error_repeat by lia. auto.
Qed.

Lemma forth_writes p (ys : list Y) (pre post : list (option Y)) : length pre = p -> length post = length ys ->
  writes (fun i => p + i) 0 ys (pre ++ post) = pre ++ map Some ys.
Proof.
  intros Lp Lq. apply list_eq_nth.
  - rewrite writes_length, !app_length, map_length. lia.
  - rewrite writes_length, app_length. intros j Hj.
    destruct (Nat.lt_ge_cases j p) as [H|H].
    + rewrite writes_nth_other by (intros k Hk; lia).
      rewrite !nth_error_app1 by lia. auto.
    + destruct (nth_error ys (j - p)) as [y|] eqn:E; [|apply nth_error_None in E; lia].
      assert (W := writes_nth (fun i => p + i) ys 0 (pre ++ post) (j - p) y).
      simpl in W. replace (p + (j - p)) with j in W by lia. rewrite W; auto.
      * rewrite nth_error_app2 by lia. rewrite Lp, nth_error_map, E. auto.
      * intros; lia.
      * intros; rewrite app_length; lia.
Qed.

Lemma run_grid_split timeline pace t0 l1 s l2 : merge_steps timeline pace = l1 ++ s :: l2 ->
  teqb t0 s = true -> StronglySorted (before true) (s :: rev l1) -> StronglySorted (before false) (s :: l2) ->
  run_grid true timeline pace t0 = s :: rev l1 /\ run_grid false timeline pace t0 = s :: l2.
Proof.
  intros E Es GB GF. unfold run_grid. rewrite E, !filter_app. cbn [filter].
  assert (Es' := teq_sym _ _ Es).
  assert (A1 : forall a, In a l1 -> tltb a t0 = true).
  { intros a Ha. inversion_clear GB as [|? ? _ F]. rewrite Forall_forall in F.
    rewrite (tlt_eq_r _ _ a Es). apply (F a). apply -> in_rev; auto. }
  assert (A2 : forall a, In a l2 -> tltb t0 a = true).
  { intros a Ha. inversion_clear GF as [|? ? _ F]. rewrite Forall_forall in F.
    rewrite (tlt_eq_l _ _ a Es). apply (F a); auto. }
  assert (NL : forall a b, tltb a b = true -> tleb b a = false).
  { intros a b H. unfold tleb. apply orb_false_iff. split.
    - destruct (tltb b a) eqn:Q; auto. assert (Q2 := tlt_trans _ _ _ H Q).
      destruct (tlt_num _ _ H) as [Na _]. rewrite (tlt_irrefl a a Na) in Q2. discriminate.
    - destruct (teqb b a) eqn:Q; auto. apply teq_sym, tlt_irrefl in Q. congruence. }
  assert (F1 : filter (fun s => tleb s t0) l1 = l1).
  { clear -A1. induction l1 as [|a l IH]; simpl; auto. unfold tleb at 1. rewrite A1 by (simpl; auto).
    simpl. rewrite IH; auto. intros; apply A1; simpl; auto. }
  assert (F2 : filter (fun s => tleb t0 s) l2 = l2).
  { clear -A2. induction l2 as [|a l IH]; simpl; auto. unfold tleb at 1. rewrite A2 by (simpl; auto).
    simpl. rewrite IH; auto. intros; apply A2; simpl; auto. }
  assert (F3 : filter (fun s => tleb s t0) l2 = []).
  { clear -A2 NL. induction l2 as [|a l IH]; simpl; auto. rewrite (NL t0 a) by (apply A2; simpl; auto).
    apply IH. intros; apply A2; simpl; auto. }
  assert (F4 : filter (fun s => tleb t0 s) l1 = []).
  { clear -A1 NL. induction l1 as [|a l IH]; simpl; auto. rewrite (NL a t0) by (apply A1; simpl; auto).
    apply IH. intros; apply A1; simpl; auto. }
  rewrite F1, F2, F3, F4. unfold tleb. rewrite Es, Es', !orb_true_r.
  rewrite rev_app_distr. auto.
Qed.

Theorem call_refines_grid (cb : callbacks T S X Y) i0 gi pace_fn fuel s_init (timeline : list T) p0 t0 gb gf :
  gb = run_grid true timeline (pace_fn timeline) t0 ->
  gf = run_grid false timeline (pace_fn timeline) t0 ->
  nonadaptive cb -> begin_fills cb ->
  valid_timeline timeline -> start_index (length timeline) i0 p0 -> nth_error timeline p0 = Some t0 ->
  length timeline + length (pace_fn timeline) <= fuel ->
    grid_spec true timeline (pace_fn timeline) t0 gb /\
    grid_spec false timeline (pace_fn timeline) t0 gf /\
    hd_error gb = hd_error gf /\
    rmap (fun st : st_t => pair (st_s st) (st_xx st))
         (snd (call cb 2 i0 gi pace_fn fuel s_init [length timeline] timeline)) =
    rmap (fun r : S * list Y => pair (fst r) (map Some (snd r))) (ref_run cb timeline i0 p0 gb gf s_init).
Proof.
  intros Egb Egf NA BF V SI N0 HF.
  assert (HL : 2 - 1 <= length (merge_steps timeline (pace_fn timeline))).
  { destruct timeline as [|a tt]; [destruct V as [V _]; congruence|].
    destruct V as (_ & NT & ST).
    assert (HN := merge_nonempty tt (pace_fn (a :: tt)) a NT ST).
    destruct (merge_steps (a :: tt) (pace_fn (a :: tt))); [congruence|simpl; lia]. }
  assert (EX := merge_length timeline (pace_fn timeline)).
  destruct (call_split cb 2 i0 gi pace_fn fuel s_init timeline p0) as
      (t1 & t0'' & t2 & l1 & s & l2 & E1 & L1 & E2 & Es & GB & GF & SB & SF & EC); auto.
  assert (t0'' = t0).
  { rewrite E1 in N0. rewrite (mid_nth _ _ _ _ L1) in N0. congruence. }
  subst t0''.
  destruct (run_grid_split _ _ _ _ _ _ E2 (teq_sym _ _ Es) (proj1 SB) (proj1 SF)) as [R1 R2].
  rewrite R1 in Egb. rewrite R2 in Egf. subst gb gf.
  split; auto. split; auto. split; auto.
  rewrite EC. clear EC. unfold ref_run, two_pass.
  assert (FN : rev (firstn (p0 + 1) timeline) = t0 :: rev t1).
  { rewrite E1, firstn_app, L1. replace (p0 + 1 - p0) with 1 by lia.
    rewrite firstn_all2 by lia. simpl. rewrite rev_app_distr. reflexivity. }
  assert (SN : skipn p0 timeline = t0 :: t2).
  { rewrite E1, skipn_app, L1, Nat.sub_diag. rewrite skipn_all2 by lia. reflexivity. }
  rewrite FN, SN. rewrite snd_wbind. fold (backb i0). fold (forthb i0 timeline).
  assert (LT : length timeline = p0 + 1 + length t2).
  { rewrite E1, app_length, L1. simpl. lia. }
  rewrite E2, app_length in EX. simpl in EX.
  assert (HB := generate_paths_exact cb true (t0 :: rev t1) (s :: rev l1) (fun i => p0 - i) t0 (rev t1) s (rev l1)
                  fuel (init_st (Y := Y) gi s_init timeline t0) eq_refl eq_refl NA BF Es GB
                  ltac:(simpl; rewrite rev_length; lia)).
  assert (HFo := fun st => generate_paths_exact cb false (t0 :: t2) (s :: l2) (fun i => p0 + i) t0 t2 s l2
                  fuel st eq_refl eq_refl NA BF Es GF ltac:(simpl; lia)).
  simpl st_s in HB. simpl st_xx in HB.
  destruct (backb i0) eqn:BB.
  - destruct (ref_pass cb true (t0 :: rev t1) (s :: rev l1) s_init) as [[s1 ysb]|e].
    + destruct HB as (inf & -> & LB). simpl in LB. rewrite rev_length in LB.
      rewrite back_writes by lia.
      destruct (forthb i0 timeline) eqn:FB.
      * specialize (HFo (mkSt s1 (map Some (rev ysb) ++ repeat None (length timeline - p0 - 1)) inf)).
        cbn [st_s st_xx] in HFo.
        destruct (ref_pass cb false (t0 :: t2) (s :: l2) s1) as [[s2 ysf]|e]; [|rewrite HFo; reflexivity].
        destruct HFo as (inf2 & -> & LF). cbn [rmap st_s st_xx fst snd]. do 2 f_equal.
        destruct ysb as [|y0 ysb]; [simpl in LB; lia|]. cbn [rev List.tl].
        rewrite !map_app, <- app_assoc.
        change (map Some [y0]) with [Some y0].
        apply forth_writes; [rewrite map_length, rev_length; simpl in LB; lia|].
        rewrite app_length, repeat_length. simpl in *. lia.
      * cbn [rmap st_s st_xx fst snd wret]. do 2 f_equal.
        assert (t2 = []).
        { assert (NF : ~ goes_forth (length timeline) i0) by (intro Q; apply forthb_spec in Q; congruence).
          assert (Q : ~ goes_back i0 -> False) by (intro Q; apply Q; apply backb_spec; auto).
          unfold goes_forth in NF. unfold start_index in SI.
          destruct t2; auto. exfalso. simpl in LT. lia. }
        subst t2. simpl in LT. replace (length timeline - p0 - 1) with 0 by lia.
        simpl. rewrite app_nil_r. auto.
    + rewrite HB. reflexivity.
  - cbn [snd wret].
    assert (FB : forthb i0 timeline = true).
    { apply forthb_spec. left. unfold backb in BB. destruct (Z.eqb_spec i0 0); [auto|discriminate]. }
    assert (p0 = 0).
    { unfold backb in BB. destruct (Z.eqb_spec i0 0); [|discriminate]. unfold start_index in SI. lia. }
    assert (t1 = []) by (destruct t1; auto; simpl in L1; lia). rewrite FB.
    specialize (HFo (init_st (Y := Y) gi s_init timeline t0)). simpl st_s in HFo. simpl st_xx in HFo.
    destruct (ref_pass cb false (t0 :: t2) (s :: l2) s_init) as [[s2 ysf]|e]; [|rewrite HFo; reflexivity].
    destruct HFo as (inf2 & -> & LF). cbn [rmap st_s st_xx List.tl rev app fst snd]. do 2 f_equal.
    apply (forth_writes p0 ysf [] (repeat None (length timeline))); [auto|].
    rewrite repeat_length. simpl in LF. lia.
Qed.

Theorem call_refines (cb : callbacks T S X Y) i0 gi pace_fn fuel s_init (timeline : list T) p0 t0 :
  nonadaptive cb -> begin_fills cb ->
  valid_timeline timeline -> start_index (length timeline) i0 p0 -> nth_error timeline p0 = Some t0 ->
  length timeline + length (pace_fn timeline) <= fuel ->
  exists gb gf,
    grid_spec true timeline (pace_fn timeline) t0 gb /\
    grid_spec false timeline (pace_fn timeline) t0 gf /\
    hd_error gb = hd_error gf /\
    rmap (fun st : st_t => pair (st_s st) (st_xx st))
         (snd (call cb 2 i0 gi pace_fn fuel s_init [length timeline] timeline)) =
    rmap (fun r : S * list Y => pair (fst r) (map Some (snd r))) (ref_run cb timeline i0 p0 gb gf s_init).
Proof.
  intros. exists (run_grid true timeline (pace_fn timeline) t0), (run_grid false timeline (pace_fn timeline) t0).
  apply call_refines_grid; auto.
Qed.
End L.
