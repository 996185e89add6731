(** Lemmas on the optional diagnostics of an integration (C73). *)
From Coq Require Import String List Arith Bool ZArith Lia Sorting.Sorted.
From Verif Require Import Base BaseOrd BaseNum BaseArr M_paths S_paths S_run L_ord L_paths L_paths3 L_paths6 L_paths8
  M_sde S_sde L_sde L_sde2 L_sde3 L_sim L_presets5 S_info.
Import ListNotations.

Section L.
Context {T : Type} {TO : TOrd T} {TL : TOrdLaws T}.

(** the last point of a pass is an output point *)
Lemma last_In {A} (l : list A) (d : A) : l <> [] -> In (last l d) l.
Proof. intro H. destruct (exists_last H) as (l' & a & ->). rewrite last_last. apply in_or_app. simpl. auto. Qed.
Lemma grid_last_timeline rv (timeline pc : list T) t0 g d : isnum t0 -> InT t0 timeline -> grid_spec rv timeline pc t0 g -> g <> [] ->
  InT (last g d) timeline /\ (teqb t0 (last g d) = true \/ before rv t0 (last g d)).
Proof.
  intros N0 I0 [S G] NE. set (z := last g d).
  assert (ST : forall e, In e g -> e = z \/ before rv e z).
  { intros e He. unfold z. destruct (exists_last NE) as (l & a & E). rewrite E in *. rewrite last_last. apply in_app_or in He. destruct He as [He|[->|[]]]; auto.
    right. apply SS_app in S. destruct S as (_ & _ & S). apply S; simpl; auto. }
  assert (IZ : In z g) by (apply last_In; auto).
  assert (NZ : isnum z).
  { destruct g as [|a g']; [congruence|]. destruct (ST a (or_introl eq_refl)) as [E|E]; [|apply (before_num rv _ _ E)].
    destruct (grid_head rv timeline pc t0 (a :: g') N0 I0 (conj S G)) as (s & g2 & E2 & E3). injection E2 as <- <-. rewrite <- E. eapply teq_num_l; eauto. }
  destruct (proj1 (G z) (InT_In _ _ NZ IZ)) as [[HT|(HP & a & b & Ia & Ib & La & Lb)] D]; [auto|].
  split; auto.
  assert (K : forall c, InT c timeline -> (teqb z c = true \/ before rv z c) -> InT z timeline).
  { intros c Ic Hc. destruct Hc as [Hc|Hc]; [apply InT_eq with c; auto; apply teq_sym; auto|].
    exfalso. assert (Gc : InT c g). { apply G. split; [auto|]. right. destruct D as [D|D]; [apply (before_eq_l rv _ _ c D); auto|eapply before_trans; eauto]. }
    destruct Gc as (e & He & Ee). destruct (ST e He) as [->|B].
    - apply (before_irrefl rv z c); [apply teq_sym; auto|auto].
    - apply (before_eq_r rv _ _ z Ee) in Hc. eapply before_asym; eauto. }
  destruct rv.
  - apply (K a Ia). apply tleb_iff in La. unfold before in *. destruct La as [La|La]; [right; exact La|left; apply teq_sym; auto].
  - apply (K b Ib). apply tleb_iff in Lb. tauto.
Qed.
Lemma grid_last_output (timeline pc : list T) p0 t0 gb gf d : valid_timeline timeline -> nth_error timeline p0 = Some t0 ->
  grid_spec true timeline pc t0 gb -> grid_spec false timeline pc t0 gf -> gb <> [] -> gf <> [] ->
  InT (last gb d) (rev (firstn (p0 + 1) timeline)) /\ InT (last gf d) (skipn p0 timeline).
Proof.
  intros (NN & NT & ST) N0 GB GF NB NF.
  destruct (nth_error_split _ _ N0) as (t1 & t2 & E & L1).
  assert (FN : rev (firstn (p0 + 1) timeline) = t0 :: rev t1).
  { rewrite E, firstn_app, L1. replace (p0 + 1 - p0) with 1 by lia. rewrite firstn_all2 by lia. simpl. rewrite rev_app_distr. reflexivity. }
  assert (SN : skipn p0 timeline = t0 :: t2).
  { rewrite E, skipn_app, L1, Nat.sub_diag. rewrite skipn_all2 by lia. reflexivity. }
  assert (I0 : In t0 timeline) by (rewrite E; apply in_or_app; simpl; auto).
  assert (NT0 : isnum t0) by (rewrite Forall_forall in NT; auto).
  rewrite FN, SN. rewrite E in ST. apply SS_app in ST. destruct ST as (S1 & S2 & S12). inversion_clear S2 as [|? ? S2' F2]. rewrite Forall_forall in F2.
  split.
  - destruct (grid_last_timeline true timeline pc t0 gb d NT0 (InT_In _ _ NT0 I0) GB NB) as [HT D]. set (z := last gb d) in *.
    rewrite E in HT. apply InT_app in HT. destruct HT as [HT|HT]; [apply InT_cons; right; apply InT_rev; auto|]. apply InT_cons in HT. apply InT_cons.
    destruct HT as [HT|(e & He & Ee)]; auto. left. destruct D as [D|D]; [apply teq_sym; auto|]. exfalso.
    specialize (F2 e He). apply (before_eq_r true _ _ t0 Ee) in D. unfold before in *. apply (before_asym false t0 e F2). exact D.
  - destruct (grid_last_timeline false timeline pc t0 gf d NT0 (InT_In _ _ NT0 I0) GF NF) as [HT D]. set (z := last gf d) in *.
    rewrite E in HT. apply InT_app in HT. destruct HT as [(e & He & Ee)|HT]; [|auto]. apply InT_cons. left. destruct D as [D|D]; [apply teq_sym; auto|]. exfalso.
    specialize (S12 e t0 He (or_introl eq_refl)). apply (before_eq_r false _ _ t0 Ee) in D. eapply before_asym; eauto.
Qed.

Context {V : Type} {NV : Num V} {Wd I : Type}.
Variable tsub : T -> T -> V.
Variable ig : integ T V Wd I.
Notation on := (set_getinfo true ig).
Notation off := (set_getinfo false ig).

(** a run that logs diagnostics and does not fail gives the values of one that does not *)
Lemma off_follows i0 pace_fn fuel wd inf inf2 (timeline : list T) p0 wd' inf' xx :
  valid_timeline timeline -> start_index (length timeline) i0 p0 -> length timeline + length (pace_fn timeline) <= fuel ->
  sde_call tsub on i0 pace_fn fuel (wd, inf) [length timeline] timeline = Ok ((wd', inf'), xx) ->
  sde_call tsub off i0 pace_fn fuel (wd, inf2) [length timeline] timeline = Ok ((wd', inf2), xx).
Proof.
  intros V0 SI HF H.
  assert (FO : follows tsub on off eq eq (fun _ i => i = inf2)).
  { split; cbn [set_getinfo ig_init ig_let ig_getinfo].
    - intros t x1 E. exists x1. split; auto.
    - intros wd1 t t' x1 x2 wd1' x1' <- E. exists x1'. split; auto.
    - intros t x1 x2 y1 <- E. exists y1. auto.
    - auto.
    - intros iv wd1 x1 x2 i1 i2 i1' _ -> _. exists inf2. auto.
    - auto.
    - intros iv i1 i2 i1' -> _. exists inf2. auto. }
  destruct (integ_sim tsub on off eq eq _ FO i0 pace_fn fuel wd inf inf2 timeline p0 wd' inf' xx V0 SI HF eq_refl H) as (j & xx2 & E & -> & F).
  rewrite E. repeat f_equal. clear - F. induction F as [|a b l l' (y1 & y2 & -> & -> & <-) F IH]; auto. rewrite IH. reflexivity.
Qed.

(** *** diagnostics that do not fail *)
Variable Inv : list T -> I -> Prop.
Hypothesis IS : info_succeeds ig Inv.

Lemma steps_same rv tl grid todo : forall i wd inf inf2 t x, 1 <= i ->
  Forall2 (fun ti t => teqb ti t = true) (skipn i tl) (filter (fun t => memT t tl) todo) ->
  (forall d, todo <> [] -> InT (last todo d) tl) -> Inv tl inf ->
  match ref_steps (sde_cb tsub off) rv tl grid i (wd, inf2) t x todo with
  | Ok ((wd', _), ys) => exists inf', ref_steps (sde_cb tsub on) rv tl grid i (wd, inf) t x todo = Ok ((wd', inf'), ys) /\ Inv tl inf'
  | Err e => ref_steps (sde_cb tsub on) rv tl grid i (wd, inf) t x todo = Err e
  end.
Proof.
  induction todo as [|t' todo IH]; intros i wd inf inf2 t x Hi AL LT HI; cbn [ref_steps].
  - exists inf. auto.
  - cbn [cb_next sde_cb]. unfold sde_next. cbn [fst snd set_getinfo ig_getinfo ig_info_next].
    change (euler_next tsub off wd t t' x) with (euler_next tsub ig wd t t' x). change (euler_next tsub on wd t t' x) with (euler_next tsub ig wd t t' x).
    destruct (euler_next tsub ig wd t t' x) as [[wd1 x1]|e]; cbn [rbind]; [|reflexivity].
    assert (LI : i < length tl).
    { specialize (LT t ltac:(discriminate)). apply memT_InT in LT.
      assert (In (last (t' :: todo) t) (filter (fun t => memT t tl) (t' :: todo))) by (apply filter_In; split; auto; apply last_In; discriminate).
      destruct (Nat.lt_ge_cases i (length tl)) as [|G]; auto. rewrite skipn_all2 in AL by lia. destruct (filter (fun t => memT t tl) (t' :: todo)); [destruct H|inversion AL]. }
    destruct (is_next _ _ IS (mkIv grid tl rv i) wd1 x inf HI (conj Hi LI)) as (inf1 & E1 & HI1). cbn [iv_tt] in HI1. rewrite E1. cbn [rbind].
    assert (LT' : forall d, todo <> [] -> InT (last todo d) tl).
    { intros d NE. specialize (LT d ltac:(discriminate)). destruct todo as [|b todo']; [congruence|]. exact LT. }
    cbn [filter] in AL. destruct (memT t' tl) eqn:M.
    + cbn [cb_store sde_cb]. unfold sde_store. cbn [fst snd set_getinfo ig_getinfo ig_info_store ig_let].
      destruct (ig_let ig t' x1) as [y|e]; cbn [rbind]; [|reflexivity].
      inversion AL as [|b ? l1 ? ET AL' EQ]; subst. symmetry in EQ. destruct (skipn_cons _ _ _ _ EQ) as [Nb SK]. rewrite <- SK in AL'.
      specialize (IH (S i) wd1 (ig_info_store ig inf1) inf2 t' x1 ltac:(lia) AL' LT' (is_store _ _ IS _ _ HI1)).
      destruct (ref_steps (sde_cb tsub off) rv tl grid (S i) (wd1, inf2) t' x1 todo) as [[[wd' j] ys]|e].
      * destruct IH as (inf' & -> & HI'). exists inf'. auto.
      * rewrite IH. reflexivity.
    + exact (IH i wd1 inf1 inf2 t' x1 Hi AL LT' HI1).
Qed.
Lemma pass_same rv tl grid wd inf inf2 :
  StronglySorted (before rv) grid -> StronglySorted (before rv) tl -> (forall t, In t tl -> InT t grid) -> (forall d, grid <> [] -> InT (last grid d) tl) ->
  match ref_pass (sde_cb tsub off) rv tl grid (wd, inf2) with
  | Ok ((wd', _), ys) => exists inf', ref_pass (sde_cb tsub on) rv tl grid (wd, inf) = Ok ((wd', inf'), ys)
  | Err e => ref_pass (sde_cb tsub on) rv tl grid (wd, inf) = Err e
  end.
Proof.
  intros S1 S2 HI LT. unfold ref_pass. destruct grid as [|t todo]; [reflexivity|].
  cbn [cb_begin sde_cb]. unfold sde_begin. cbn [iv_steps iv_tt]. destruct tl as [|t1 tl']; [reflexivity|].
  destruct (teqb t t && teqb t t1) eqn:EA; [|reflexivity]. cbn [set_getinfo ig_init ig_log ig_getinfo ig_info_begin fst snd].
  destruct (ig_init ig t) as [x|e]; cbn [rbind map]; [|reflexivity].
  set (x1 := if ig_log ig then _ else _).
  cbn [cb_store sde_cb]. unfold sde_store. cbn [fst snd set_getinfo ig_getinfo ig_info_store ig_let].
  destruct (ig_let ig t x1) as [y|e]; cbn [rbind]; [|reflexivity].
  assert (AL := outputs_align rv (t :: todo) (t1 :: tl') S1 S2 HI).
  assert (M : memT t (t1 :: tl') = true).
  { apply memT_spec. apply InT_cons. left. apply andb_true_iff in EA. apply EA. }
  cbn [filter] in AL. rewrite M in AL. inversion AL as [|? ? ? ? _ AL']; subst.
  assert (LT' : forall d, todo <> [] -> InT (last todo d) (t1 :: tl')).
  { intros d NE. specialize (LT d ltac:(discriminate)). destruct todo as [|b todo']; [congruence|]. exact LT. }
  assert (Q := steps_same rv (t1 :: tl') (t :: todo) todo 1 wd (ig_info_store ig (ig_info_begin ig (mkIv (t :: todo) (t1 :: tl') rv 0) inf)) inf2 t x1 (le_n _) AL' LT'
    (is_store _ _ IS _ _ (is_begin _ _ IS (mkIv (t :: todo) (t1 :: tl') rv 0) inf))).
  destruct (ref_steps (sde_cb tsub off) rv _ _ 1 _ _ _ _) as [[[wd' j] ys]|e].
  - destruct Q as (inf' & -> & HI'). cbn [cb_end sde_cb]. unfold sde_end. cbn [fst snd set_getinfo ig_getinfo ig_info_end].
    destruct (is_end _ _ IS (mkIv (t :: todo) (t1 :: tl') rv (length (t1 :: tl'))) inf' HI') as (inf3 & ->). cbn [rbind]. eauto.
  - rewrite Q. reflexivity.
Qed.

Theorem outcome_same i0 pace_fn fuel wd inf inf2 (timeline : list T) p0 :
  valid_timeline timeline -> start_index (length timeline) i0 p0 -> length timeline + length (pace_fn timeline) <= fuel ->
  outcome (sde_call tsub on i0 pace_fn fuel (wd, inf) [length timeline] timeline) =
  outcome (sde_call tsub off i0 pace_fn fuel (wd, inf2) [length timeline] timeline).
Proof.
  intros V0 SI HF.
  assert (LT : p0 < length timeline) by (unfold start_index in SI; lia).
  destruct (nth_error timeline p0) as [t0|] eqn:N0; [|apply nth_error_None in N0; lia].
  rewrite (sde_call_ref tsub on _ _ _ _ _ p0 t0), (sde_call_ref tsub off _ _ _ _ _ p0 t0) by auto.
  destruct (call_refines_grid (sde_cb tsub ig) i0 true pace_fn fuel (wd, inf) timeline p0 t0 _ _ eq_refl eq_refl
    (sde_nonadaptive _ _) (sde_begin_fills _ _) V0 SI N0 HF) as (GB & GF & _ & _).
  set (gb := run_grid true timeline (pace_fn timeline) t0) in *.
  set (gf := run_grid false timeline (pace_fn timeline) t0) in *.
  destruct (timeline_grid _ _ _ _ _ _ V0 N0 GB GF) as [[SB IB] [SF IF]].
  assert (I0 : In t0 timeline) by (eapply nth_error_In; eauto).
  assert (NT : isnum t0). { destruct V0 as (_ & NT & _). rewrite Forall_forall in NT. auto. }
  assert (NB : gb <> []) by (destruct (grid_head _ _ _ _ _ NT (InT_In _ _ NT I0) GB) as (? & ? & -> & _); discriminate).
  assert (NF : gf <> []) by (destruct (grid_head _ _ _ _ _ NT (InT_In _ _ NT I0) GF) as (? & ? & -> & _); discriminate).
  assert (LG : forall d, InT (last gb d) (rev (firstn (p0 + 1) timeline)) /\ InT (last gf d) (skipn p0 timeline)) by (intro d; eapply grid_last_output; eauto).
  assert (PB : forall wd inf inf2, match ref_pass (sde_cb tsub off) true (rev (firstn (p0 + 1) timeline)) gb (wd, inf2) with
    | Ok ((wd', _), ys) => exists inf', ref_pass (sde_cb tsub on) true (rev (firstn (p0 + 1) timeline)) gb (wd, inf) = Ok ((wd', inf'), ys)
    | Err e => ref_pass (sde_cb tsub on) true (rev (firstn (p0 + 1) timeline)) gb (wd, inf) = Err e end).
  { intros. apply pass_same; auto; [apply GB|]. intros d _. apply LG. }
  assert (PF : forall wd inf inf2, match ref_pass (sde_cb tsub off) false (skipn p0 timeline) gf (wd, inf2) with
    | Ok ((wd', _), ys) => exists inf', ref_pass (sde_cb tsub on) false (skipn p0 timeline) gf (wd, inf) = Ok ((wd', inf'), ys)
    | Err e => ref_pass (sde_cb tsub on) false (skipn p0 timeline) gf (wd, inf) = Err e end).
  { intros. apply pass_same; auto; [apply GF|]. intros d _. apply LG. }
  unfold ref_run. cbv zeta.
  destruct (negb (i0 =? 0)%Z).
  - specialize (PB wd inf inf2). destruct (ref_pass (sde_cb tsub off) true _ gb _) as [[[wd1 ja] yb]|e]; [destruct PB as (j1 & ->)|rewrite PB; reflexivity].
    destruct (_ || _); [|reflexivity].
    specialize (PF wd1 j1 ja). destruct (ref_pass (sde_cb tsub off) false _ gf _) as [[[wd2 jb] yf]|e]; [destruct PF as (j2 & ->)|rewrite PF; reflexivity]. reflexivity.
  - destruct (_ || _); [|reflexivity].
    specialize (PF wd inf inf2). destruct (ref_pass (sde_cb tsub off) false _ gf _) as [[[wd2 jb] yf]|e]; [destruct PF as (j2 & ->)|rewrite PF; reflexivity]. reflexivity.
Qed.
End L.
