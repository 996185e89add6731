(** Lemmas about the simulation engine: theorems about whole calls. *)
From Coq Require Import List ZArith Bool Lia Sorting.Sorted.
From Verif Require Import Base BaseOrd M_paths S_paths L_ord L_paths L_paths2 L_paths3 L_paths4 L_paths5.
Import ListNotations.

Section L.
Context {T : Type} {TO : TOrd T} {TL : TOrdLaws T} {S X Y : Type}.
Notation event := (event T X Y).
Notation st_t := (st_t T S Y).

Lemma total_fills (cb : callbacks T S X Y) : total_cb cb -> begin_fills cb.
Proof.
  intros (TB & _) iv s sw s' xw H. destruct (TB iv s sw) as (a & b & E & L).
  rewrite E in H. injection H as <- <-. auto.
Qed.

Lemma uinsert_length (x : T) l : length (uinsert x l) <= Datatypes.S (length l).
Proof.
  induction l as [|y l IH]; simpl; auto. destruct (tltb x y); simpl; auto.
  destruct (teqb x y); simpl; lia.
Qed.
Lemma unique_length (l : list T) : length (unique l) <= length l.
Proof. induction l as [|x l IH]; simpl; auto. eapply Nat.le_trans; [apply uinsert_length|]. lia. Qed.
Lemma filter_length_le {A} (p : A -> bool) l : length (filter p l) <= length l.
Proof. induction l as [|x l IH]; simpl; auto. destruct (p x); simpl; lia. Qed.
Lemma merge_length (tt pc : list T) : length (merge_steps tt pc) <= length tt + length pc.
Proof.
  destruct tt as [|a tt]; simpl; [lia|]. eapply Nat.le_trans; [apply unique_length|].
  rewrite app_length. simpl. pose proof (filter_length_le (fun t => tleb a t && tleb t (last (a :: tt) a)) pc).
  simpl in *. lia.
Qed.

(** a strictly ordered enumeration is determined by its members *)
Lemma SS_unique r (l l' : list T) :
  StronglySorted (before r) l -> StronglySorted (before r) l' -> Forall isnum l -> Forall isnum l' ->
  (forall t, InT t l <-> InT t l') -> length l = length l'.
Proof.
  intro H. revert l'. induction H as [|a l H IH F]; intros l' H' N N' E.
  - destruct l' as [|b l']; auto. exfalso. apply (InT_nil b). apply E.
    inversion_clear N'. apply InT_In; auto. left; auto.
  - destruct l' as [|b l'].
    { exfalso. apply (InT_nil a). apply E. inversion_clear N. apply InT_In; auto. left; auto. }
    simpl. f_equal. inversion_clear N as [|? ? Na Nl]. inversion_clear N' as [|? ? Nb Nl'].
    inversion_clear H' as [|? ? H1 F1].
    assert (AB : teqb a b = true).
    { assert (Ia : InT a (b :: l')) by (apply E, InT_In; [auto|left; auto]).
      assert (Ib : InT b (a :: l)) by (apply E, InT_In; [auto|left; auto]).
      apply InT_cons in Ia, Ib. destruct Ia as [Ia|[u [Hu Eu]]]; auto.
      destruct Ib as [Ib|[v [Hv Ev]]]; [apply teq_sym; auto|]. exfalso.
      rewrite Forall_forall in *. specialize (F v Hv). specialize (F1 u Hu).
      apply (before_eq_r r v b a (teq_sym _ _ Ev)) in F.
      apply (before_eq_r r u a b (teq_sym _ _ Eu)) in F1.
      eapply before_asym; eauto. }
    apply IH; auto. intro t.
    assert (NI : forall t, InT t l -> ~ teqb t b = true).
    { intros u [v [Hv Ev]] Q. rewrite Forall_forall in F. specialize (F v Hv).
      apply (before_irrefl r a v); auto.
      eapply teq_trans; [exact AB|]. eapply teq_trans; [apply teq_sym; exact Q | exact Ev]. }
    assert (NI' : forall t, InT t l' -> ~ teqb t a = true).
    { intros u [v [Hv Ev]] Q. rewrite Forall_forall in F1. specialize (F1 v Hv).
      apply (before_irrefl r b v); auto.
      eapply teq_trans; [apply teq_sym; exact AB|]. eapply teq_trans; [apply teq_sym; exact Q | exact Ev]. }
    specialize (E t). rewrite !InT_cons in E. split; intro HI.
    + destruct (proj1 E (or_intror HI)) as [Q|Q]; auto. exfalso. eapply NI; eauto.
    + destruct (proj2 E (or_intror HI)) as [Q|Q]; auto. exfalso. eapply NI'; eauto.
Qed.

Lemma InT_num (t : T) l : InT t l -> isnum t.
Proof. intros [s [_ E]]. eapply teq_num_l; eauto. Qed.

Lemma grid_num r (timeline pc : list T) t0 g : grid_spec r timeline pc t0 g ->
  valid_timeline timeline -> InT t0 timeline -> Forall isnum g.
Proof.
  intros [SG IG] (NE & NT & ST) I0. apply Forall_forall. intros t Ht.
  destruct g as [|a [|b g]]; [destruct Ht| |].
  - destruct Ht as [<-|[]].
    assert (Q : InT t0 [a]).
    { apply IG. split; auto. left. apply (InT_num _ _ I0). }
    destruct Q as [u [[->|[]] E]]. eapply teq_num_r; eauto.
  - apply (in_split t) in Ht. destruct Ht as (l1 & l2 & E). rewrite E in SG.
    destruct l1 as [|c l1].
    + destruct l2 as [|d l2]; [discriminate|]. simpl in SG.
      inversion_clear SG as [|? ? _ F]. inversion_clear F as [|? ? B _].
      apply before_num in B; tauto.
    + apply SS_app in SG. destruct SG as (_ & _ & B). specialize (B c t).
      assert (before r c t) by (apply B; left; auto). apply before_num in H; tauto.
Qed.

Lemma grid_length r (timeline pc : list T) t0 g g' :
  valid_timeline timeline -> InT t0 timeline ->
  grid_spec r timeline pc t0 g -> grid_spec r timeline pc t0 g' -> length g = length g'.
Proof.
  intros V I0 G G'. apply (SS_unique r).
  - apply G.
  - apply G'.
  - eapply grid_num; eauto.
  - eapply grid_num; eauto.
  - intro t. rewrite (proj2 G), (proj2 G'). tauto.
Qed.

(** the whole grid *)
Lemma merge_is_grid timeline (pc : list T) a tt : timeline = a :: tt -> valid_timeline timeline ->
  grid_spec false timeline pc a (merge_steps timeline pc).
Proof.
  intros -> (NE & NT & ST). split; [apply merge_sorted; auto|].
  intro t. rewrite (merge_InT tt pc a NT ST). split; [|tauto].
  intro H. split; auto. apply (merge_InT tt pc a NT ST) in H.
  destruct H as [s [Hs E]]. destruct (merge_range tt pc a NT ST s Hs) as [R _].
  rewrite <- (tleb_eq_r t s a E) in R. apply tleb_iff in R. tauto.
Qed.

Lemma valid_split (timeline : list T) i0 p0 : valid_timeline timeline ->
  start_index (length timeline) i0 p0 -> exists t0, nth_error timeline p0 = Some t0 /\ InT t0 timeline.
Proof.
  intros (_ & N & _) SI. apply start_index_lt in SI.
  destruct (nth_error timeline p0) as [t0|] eqn:E; [|apply nth_error_None in E; lia].
  exists t0; split; auto. apply nth_error_In in E. apply InT_In; auto.
  rewrite Forall_forall in N; auto.
Qed.

Lemma mid_nth {A} (t1 : list A) t0 t2 p : length t1 = p -> nth_error (t1 ++ t0 :: t2) p = Some t0.
Proof. intros <-. rewrite nth_error_app2, Nat.sub_diag by lia. reflexivity. Qed.

(** *** Termination, outputs, grid: steps never shortened *)
Theorem call_total (cb : callbacks T S X Y) K i0 gi pace_fn fuel s_init (timeline : list T) p0 t0 :
  total_cb cb -> nonadaptive cb -> 2 <= K ->
  valid_timeline timeline -> start_index (length timeline) i0 p0 -> nth_error timeline p0 = Some t0 ->
  (goes_back i0 -> deep_enough K true timeline (pace_fn timeline) t0) ->
  (goes_forth (length timeline) i0 -> deep_enough K false timeline (pace_fn timeline) t0) ->
  length timeline + length (pace_fn timeline) <= fuel ->
  exists tr st',
    @call T TO S X Y cb K i0 gi pace_fn fuel s_init [length timeline] timeline = (tr, Ok st') /\
    outputs_ok (store_rel cb) timeline i0 p0 tr (st_xx st') /\
    (goes_back i0 -> grid_spec true timeline (pace_fn timeline) t0 (visited true tr)) /\
    (goes_forth (length timeline) i0 ->
       grid_spec false timeline (pace_fn timeline) t0 (visited false tr)).
Proof.
  intros TC NA HK V SI N0 DB DF HF.
  assert (I0 : InT t0 timeline).
  { destruct V as (_ & N & _). apply nth_error_In in N0. apply InT_In; auto.
    rewrite Forall_forall in N; auto. }
  assert (EX := merge_length timeline (pace_fn timeline)).
  (* enough points overall *)
  assert (HL : K - 1 <= length (merge_steps timeline (pace_fn timeline))).
  { destruct (call_split cb 2 i0 gi pace_fn fuel s_init timeline p0) as
      (t1 & t0' & t2 & l1 & s & l2 & E1 & L1 & E2 & Es & GB & GF & SB & SF & _); auto.
    { destruct timeline as [|a tt]; [destruct V as [V _]; congruence|].
      destruct V as (_ & NT & ST).
      assert (HN := merge_nonempty tt (pace_fn (a :: tt)) a NT ST).
      destruct (merge_steps (a :: tt) (pace_fn (a :: tt))); [congruence|simpl; lia]. }
    assert (t0' = t0).
    { rewrite E1 in N0. rewrite (mid_nth _ _ _ _ L1) in N0. congruence. }
    subst t0'. rewrite E2, app_length. simpl.
    assert (goes_back i0 \/ goes_forth (length timeline) i0) as [B|B].
    { unfold goes_back, goes_forth. lia. }
    - specialize (DB B _ SB). simpl in DB. rewrite rev_length in DB. lia.
    - specialize (DF B _ SF). simpl in DF. lia. }
  destruct (call_split cb K i0 gi pace_fn fuel s_init timeline p0) as
      (t1 & t0' & t2 & l1 & s & l2 & E1 & L1 & E2 & Es & GB & GF & SB & SF & EC); auto.
  assert (t0' = t0).
  { rewrite E1 in N0. rewrite (mid_nth _ _ _ _ L1) in N0. congruence. }
  subst t0'.
  rewrite E2, app_length in EX. simpl in EX.
  assert (exists trb st1, (if backb i0 then
     generate_paths cb K true (t0 :: rev t1) (s :: rev l1) (fun i => p0 - i) fuel (init_st gi s_init timeline t0)
     else wret (init_st gi s_init timeline t0)) = (trb, Ok st1) /\
     (goes_back i0 -> visited true trb = s :: rev l1) /\ pass_ok true trb) as (trb & st1 & EB & VB & PB).
  { destruct (backb i0) eqn:B.
    - apply backb_spec in B.
      destruct (generate_paths_total cb K true (t0 :: rev t1) (s :: rev l1) (fun i => p0 - i) fuel
                  (init_st gi s_init timeline t0)) as (trb & st1 & E & Vs); auto.
      + specialize (DB B _ SB). auto.
      + simpl. rewrite rev_length. lia.
      + exists trb, st1. repeat split; auto.
        apply generate_paths_ok in E; [apply E | apply total_fills; auto].
    - exists [], (init_st gi s_init timeline t0). repeat split; auto; [|constructor].
      intro H. apply backb_spec in H. congruence. }
  assert (exists trf st2, (if forthb i0 timeline then
     generate_paths cb K false (t0 :: t2) (s :: l2) (fun i => p0 + i) fuel st1
     else wret st1) = (trf, Ok st2) /\
     (goes_forth (length timeline) i0 -> visited false trf = s :: l2) /\ pass_ok false trf)
    as (trf & st2 & EF & VF & PF).
  { destruct (forthb i0 timeline) eqn:B.
    - apply forthb_spec in B.
      destruct (generate_paths_total cb K false (t0 :: t2) (s :: l2) (fun i => p0 + i) fuel
                  st1) as (trf & st2 & E & Vs); auto.
      + specialize (DF B _ SF). auto.
      + simpl. lia.
      + exists trf, st2. repeat split; auto.
        apply generate_paths_ok in E; [apply E | apply total_fills; auto].
    - exists [], st1. repeat split; auto; [|constructor].
      intro H. apply forthb_spec in H. congruence. }
  assert (TP : two_pass cb K i0 gi fuel s_init timeline p0 t1 t0 t2 l1 s l2 = (trb ++ trf, Ok st2)).
  { unfold two_pass. rewrite EB. simpl. rewrite EF. reflexivity. }
  exists (trb ++ trf), st2. rewrite EC.
  split; [exact TP|]. split.
  - eapply two_pass_outputs; [apply total_fills; auto | | | |]; eauto.
  - rewrite !visited_app.
    destruct (pass_stores_nil _ _ PB) as [_ VB0]. destruct (pass_stores_nil _ _ PF) as [_ VF0].
    simpl in VB0, VF0. rewrite VB0, VF0, app_nil_r. simpl.
    split; intro Q; [rewrite VB | rewrite VF]; auto.
Qed.

(** *** Any normally terminating run *)
Theorem call_any (cb : callbacks T S X Y) K i0 gi pace_fn fuel s_init shape (timeline : list T) tr st' :
  begin_fills cb ->
  @call T TO S X Y cb K i0 gi pace_fn fuel s_init shape timeline = (tr, Ok st') ->
  2 <= K /\ shape = [length timeline] /\ valid_timeline timeline /\
  exists p0 t0, start_index (length timeline) i0 p0 /\ nth_error timeline p0 = Some t0 /\
    outputs_ok (store_rel cb) timeline i0 p0 tr (st_xx st') /\
    StronglySorted (before true) (visited true tr) /\
    StronglySorted (before false) (visited false tr) /\
    (forall r w, In w (stores r tr) -> st_idx w = p0 ->
       exists sw xw, In (EvBegin r (st_time w :: sw) (st_x w :: xw)) tr) /\
    (forall r : bool, (if r then goes_back i0 else goes_forth (length timeline) i0) <->
               exists sw xw, In (EvBegin r sw xw) tr).
Proof.
  intros BF H.
  assert (HK : 2 <= K /\ shape = [length timeline] /\ valid_timeline timeline /\
     (exists p0, start_index (length timeline) i0 p0) /\
     K - 1 <= length (merge_steps timeline (pace_fn timeline))).
  { unfold call in H. destruct (Nat.ltb_spec K 2) as [?|HK]; [discriminate|]. split; auto.
    destruct (match shape with [m] => m =? length timeline | _ => false end) eqn:ES; [|discriminate].
    simpl in H.
    destruct (array_equal timeline (unique timeline)) eqn:EA; [|discriminate]. simpl in H.
    destruct (norm_index (length timeline) i0) as [p0|] eqn:EN; [|discriminate].
    destruct timeline as [|a tt] eqn:ET; [discriminate|]. rewrite <- ET in *.
    split.
    { destruct shape as [|m [|]]; try discriminate. apply Nat.eqb_eq in ES. congruence. }
    apply array_equal_unique in EA.
    split; [split; [rewrite ET; discriminate | exact EA]|].
    split; [exists p0; apply norm_index_spec; auto|].
    destruct (Nat.ltb_spec (length (merge_steps timeline (pace_fn timeline))) (K - 1)); [discriminate|auto]. }
  destruct HK as (HK & -> & V & (p0 & SI) & HL).
  split; [auto|]. split; [auto|]. split; [auto|].
  destruct (call_split cb K i0 gi pace_fn fuel s_init timeline p0) as
      (t1 & t0 & t2 & l1 & s & l2 & E1 & L1 & E2 & Es & GB & GF & SB & SF & EC); auto.
  rewrite EC in H. exists p0, t0. split; auto.
  split; [rewrite E1; apply mid_nth; auto|].
  assert (OUT := two_pass_outputs cb K i0 gi fuel s_init _ _ _ _ _ _ _ _ _ _ BF E1 L1 SI H).
  split; [exact OUT|].
  apply two_pass_ok in H. destruct H as (trb & st1 & trf & -> & HB & HF).
  assert (PB : pass_ok true trb /\ StronglySorted (before true) (visited true trb) /\
     (if backb i0 then exists sw x0 xw y rest,
        trb = EvBegin true (s :: sw) (x0 :: xw) :: EvStore true p0 s x0 y :: rest else trb = [])).
  { destruct (backb i0).
    - split; [apply generate_paths_ok in HB; [apply HB | auto]|]. split.
      + eapply generate_paths_sorted; eauto. apply GB.
      + apply generate_paths_first in HB; auto.
        destruct HB as (sw & x0 & xw & y & rest & ->). rewrite Nat.sub_0_r.
        exists sw, x0, xw, y, rest; auto.
    - destruct HB as [-> _]. repeat split; constructor. }
  assert (PF : pass_ok false trf /\ StronglySorted (before false) (visited false trf) /\
     (if forthb i0 timeline then exists sw x0 xw y rest,
        trf = EvBegin false (s :: sw) (x0 :: xw) :: EvStore false p0 s x0 y :: rest else trf = [])).
  { destruct (forthb i0 timeline).
    - split; [apply generate_paths_ok in HF; [apply HF | auto]|]. split.
      + eapply generate_paths_sorted; eauto. apply GF.
      + apply generate_paths_first in HF; auto.
        destruct HF as (sw & x0 & xw & y & rest & ->). rewrite Nat.add_0_r.
        exists sw, x0, xw, y, rest; auto.
    - destruct HF as [-> _]. repeat split; constructor. }
  destruct PB as (PB & SSB & FB). destruct PF as (PF & SSF & FF).
  assert (SPB := pass_stores_nil true _ PB). assert (SPF := pass_stores_nil false _ PF).
  simpl in SPB, SPF. destruct SPB as [SB0 VB0]. destruct SPF as [SF0 VF0].
  rewrite !visited_app, VB0, VF0, app_nil_r. simpl.
  split; [auto|]. split; [auto|]. split.
  - intros r w Hw Ew.
    rewrite stores_app in Hw.
    destruct OUT as [OB OBN OF OFN _ _ _ _]. rewrite !stores_app in *.
    destruct r.
    + rewrite SF0, app_nil_r in *. destruct (backb i0) eqn:B.
      * destruct FB as (sw & x0 & xw & y & rest & ->).
        assert (GO : goes_back i0) by (apply backb_spec; auto).
        specialize (OB GO). simpl in OB, Hw.
        destruct Hw as [<-|Hw]; [exists sw, xw; left; auto|]. exfalso.
        assert (ND : NoDup (p0 :: map st_idx (stores true rest))).
        { unfold st_idx at 1 in OB. simpl in OB. rewrite OB. apply NoDup_rev, seq_NoDup. }
        inversion_clear ND as [|? ? N _]. apply N. rewrite <- Ew. apply in_map; auto.
      * subst trb. destruct Hw.
    + rewrite SB0 in *. simpl in *. destruct (forthb i0 timeline) eqn:B.
      * destruct FF as (sw & x0 & xw & y & rest & ->).
        assert (GO : goes_forth (length timeline) i0) by (apply forthb_spec; auto).
        specialize (OF GO). simpl in OF, Hw.
        destruct Hw as [<-|Hw]; [exists sw, xw; apply in_or_app; right; left; auto|]. exfalso.
        assert (ND : NoDup (p0 :: map st_idx (stores false rest))).
        { unfold st_idx at 1 in OF. simpl in OF. rewrite OF. apply seq_NoDup. }
        inversion_clear ND as [|? ? N _]. apply N. rewrite <- Ew. apply in_map; auto.
      * subst trf. destruct Hw.
  - unfold pass_ok in PB, PF. rewrite Forall_forall in PB, PF.
    intros []; split.
    + intro G. apply backb_spec in G. rewrite G in FB.
      destruct FB as (sw & x0 & xw & y & rest & ->). do 2 eexists. left; reflexivity.
    + intros (sw & xw & HI). apply in_app_or in HI. destruct HI as [HI|HI].
      * apply backb_spec. destruct (backb i0); auto. subst trb. destruct HI.
      * apply PF in HI. discriminate.
    + intro G. apply forthb_spec in G. rewrite G in FF.
      destruct FF as (sw & x0 & xw & y & rest & ->). do 2 eexists. apply in_or_app; right. left; reflexivity.
    + intros (sw & xw & HI). apply in_app_or in HI. destruct HI as [HI|HI].
      * apply PB in HI. discriminate.
      * apply forthb_spec. destruct (forthb i0 timeline); auto. subst trf. destruct HI.
Qed.

(** *** Errors *)
Lemma two_pass_err (cb : callbacks T S X Y) K i0 gi fuel s_init (timeline : list T) p0 t1 t0 t2 l1 s l2 tr e :
  total_cb cb -> 2 <= K ->
  good_pass true (t0 :: rev t1) (s :: rev l1) -> good_pass false (t0 :: t2) (s :: l2) ->
  two_pass cb K i0 gi fuel s_init timeline p0 t1 t0 t2 l1 s l2 = (tr, Err e) ->
  e = OutOfFuel \/
  (e = RuntimeError /\ exists r tr0 sw0 xw0 target s' x',
     tr = tr0 ++ [@EvNext T X Y r sw0 xw0 target s' x'] /\ bad_step r (last sw0 target) target s') \/
  (e = StopIteration /\
    ((goes_back i0 /\ length (s :: rev l1) < K - 1) \/
     (goes_forth (length timeline) i0 /\ length (s :: l2) < K - 1))).
Proof.
  intros TC HK GB GF H. unfold two_pass in H. apply wbind_err in H.
  destruct H as [H|(trb & st1 & trf & H1 & H & ->)].
  - destruct (backb i0) eqn:B; [|discriminate].
    destruct (Nat.lt_ge_cases (length (s :: rev l1)) (K - 1)) as [L|L].
    + rewrite generate_paths_short in H by auto. injection H as <- <-.
      right; right. split; auto. left. split; auto. apply backb_spec; auto.
    + apply generate_paths_err in H; auto. destruct H as [H|(-> & H)]; auto.
      right; left. split; auto. exists true; auto.
  - destruct (forthb i0 timeline) eqn:B; [|discriminate].
    destruct (Nat.lt_ge_cases (length (s :: l2)) (K - 1)) as [L|L].
    + rewrite generate_paths_short in H by auto. injection H as <- <-.
      right; right. split; auto. right. split; auto. apply forthb_spec; auto.
    + apply generate_paths_err in H; auto. destruct H as [H|(-> & tr0 & sw0 & xw0 & t & s' & x' & -> & B')]; auto.
      right; left. split; auto. exists false, (trb ++ tr0), sw0, xw0, t, s', x'.
      rewrite app_assoc; auto.
Qed.

Theorem call_validation (cb : callbacks T S X Y) K i0 gi pace_fn fuel s_init shape (timeline : list T) :
  total_cb cb ->
  let out := @call T TO S X Y cb K i0 gi pace_fn fuel s_init shape timeline in
  (bad_value K shape timeline (pace_fn timeline) i0 <-> snd out = Err ValueError) /\
  (bad_start K shape timeline i0 <-> snd out = Err IndexError) /\
  (bad_value K shape timeline (pace_fn timeline) i0 \/ bad_start K shape timeline i0 -> fst out = []).
Proof.
  intros TC out. unfold bad_value, bad_start.
  destruct (Nat.lt_ge_cases K 2) as [HK|HK].
  { assert (out = ([], Err ValueError)) as ->.
    { unfold out, call. replace (K <? 2) with true by (symmetry; apply Nat.ltb_lt; auto). reflexivity. }
    simpl. split; [|split]; auto; [tauto|]. split; [intros [H _]; lia | discriminate]. }
  assert (EK : (K <? 2) = false) by (apply Nat.ltb_ge; auto).
  assert (NKL : ~ K < 2) by lia.
  assert (DS : shape = [length timeline] \/
               (shape <> [length timeline] /\ match shape with [m] => m =? length timeline | _ => false end = false)).
  { destruct shape as [|m [|m' r]]; try (right; split; [discriminate | reflexivity]).
    destruct (Nat.eqb_spec m (length timeline)) as [->|N]; [left; auto | right; split; auto; congruence]. }
  destruct DS as [->|[DS1 DS2]].
  2: { assert (out = ([], Err ValueError)) as ->.
       { unfold out, call. rewrite EK, DS2. reflexivity. }
       simpl. split; [|split]; auto; [tauto|]. split; [intros (_ & H & _); contradiction | discriminate]. }
  destruct (array_equal timeline (unique timeline)) eqn:EA.
  2: { assert (out = ([], Err ValueError)) as ->.
       { unfold out, call. rewrite EK, Nat.eqb_refl, EA. reflexivity. }
       assert (NV : ~ (Forall isnum timeline /\ StronglySorted (before false) timeline)).
       { rewrite <- array_equal_unique. congruence. }
       simpl. split; [|split]; auto; [tauto|]. split; [intros (_ & _ & H1 & H2 & _); tauto | discriminate]. }
  assert (EA' := EA). apply array_equal_unique in EA'. destruct EA' as [NT ST].
  destruct (norm_index (length timeline) i0) as [p0|] eqn:EN.
  2: { assert (out = ([], Err IndexError)) as ->.
       { unfold out, call. rewrite EK, Nat.eqb_refl, EA, EN. reflexivity. }
       assert (NI : forall p0, ~ start_index (length timeline) i0 p0).
       { intros p0 H. apply norm_index_spec in H. congruence. }
       simpl. split; [|split]; auto.
       - split; [|discriminate]. intros [H|[H|[H|[[p H] _]]]]; try tauto. destruct (NI p); auto.
       - split; auto. }
  assert (SI := EN). apply norm_index_spec in SI.
  assert (exists a tt, timeline = a :: tt) as (a & tt & ET).
  { clear - SI. destruct timeline as [|a tt]; [apply start_index_lt in SI; simpl in SI; lia | eauto]. }
  assert (V : valid_timeline timeline) by (split; [rewrite ET; discriminate | auto]).
  assert (MG := merge_is_grid timeline (pace_fn timeline) a tt ET V).
  assert (Ia : InT a timeline).
  { rewrite ET in *. inversion_clear NT. apply InT_In; auto. left; auto. }
  destruct (Nat.lt_ge_cases (length (merge_steps timeline (pace_fn timeline))) (K - 1)) as [HL|HL].
  { assert (out = ([], Err ValueError)) as ->.
    { unfold out, call. rewrite EK, Nat.eqb_refl, EA, EN. cbn [negb].
      replace (length (merge_steps timeline (pace_fn timeline)) <? K - 1) with true
        by (symmetry; apply Nat.ltb_lt; auto).
      clear - ET. destruct timeline; [discriminate | reflexivity]. }
    simpl. split; [|split]; auto.
    - split; auto. intros _. right; right; right. split; [eauto|].
      exists a, tt. split; auto. intros g Hg.
      rewrite (grid_length _ _ _ _ _ _ V Ia Hg MG). auto.
    - split; [|discriminate]. intros (_ & _ & _ & _ & H). exfalso. eapply H; eauto. }
  destruct (call_split cb K i0 gi pace_fn fuel s_init timeline p0) as
      (t1 & t0 & t2 & l1 & s & l2 & E1 & L1 & E2 & Es & GB & GF & SB & SF & EC); auto.
  fold out in EC.
  assert (NBV : ~ (K < 2 \/ [length timeline] <> [length timeline] \/
     ~ (Forall isnum timeline /\ StronglySorted (before false) timeline) \/
     ((exists p0, start_index (length timeline) i0 p0) /\
      exists a tt, timeline = a :: tt /\ forall g, grid_spec false timeline (pace_fn timeline) a g -> length g < K - 1))).
  { intros [H|[H|[H|[_ (a' & tt' & E' & H)]]]]; try tauto.
    rewrite ET in E'. injection E' as <- <-. specialize (H _ MG). lia. }
  assert (NBS : ~ (2 <= K /\ [length timeline] = [length timeline] /\ Forall isnum timeline /\
      StronglySorted (before false) timeline /\ forall p0, ~ start_index (length timeline) i0 p0)).
  { intros (_ & _ & _ & _ & H). eapply H; eauto. }
  destruct out as [tr [st'|e]] eqn:EO; simpl.
  - split; [|split]; [split; [tauto | discriminate] | split; [tauto | discriminate] | tauto].
  - symmetry in EC. apply two_pass_err in EC; auto.
    assert (e <> ValueError /\ e <> IndexError) as [H1 H2].
    { destruct EC as [->|[[-> _]|[-> _]]]; split; discriminate. }
    split; [|split]; [split; [tauto | intro Q; exfalso; congruence]
                     | split; [tauto | intro Q; exfalso; congruence] | tauto].
Qed.

(** classification of the errors of a valid call *)
Theorem call_errors (cb : callbacks T S X Y) K i0 gi pace_fn fuel s_init (timeline : list T) p0 t0 tr e :
  total_cb cb -> 2 <= K -> valid_timeline timeline -> start_index (length timeline) i0 p0 ->
  nth_error timeline p0 = Some t0 ->
  (goes_back i0 -> deep_enough K true timeline (pace_fn timeline) t0) ->
  (goes_forth (length timeline) i0 -> deep_enough K false timeline (pace_fn timeline) t0) ->
  @call T TO S X Y cb K i0 gi pace_fn fuel s_init [length timeline] timeline = (tr, Err e) ->
  e = OutOfFuel \/
  (e = RuntimeError /\ exists r tr0 sw0 xw0 target s' x',
     tr = tr0 ++ [EvNext r sw0 xw0 target s' x'] /\ bad_step r (last sw0 target) target s').
Proof.
  intros TC HK V SI N0 DB DF H.
  assert (I0 : InT t0 timeline).
  { destruct V as (_ & N & _). apply nth_error_In in N0. apply InT_In; auto.
    rewrite Forall_forall in N; auto. }
  destruct (Nat.lt_ge_cases (length (merge_steps timeline (pace_fn timeline))) (K - 1)) as [HL|HL].
  { exfalso.
    destruct (call_split cb 2 i0 gi pace_fn fuel s_init timeline p0) as
      (t1 & t0' & t2 & l1 & s & l2 & E1 & L1 & E2 & Es & GB & GF & SB & SF & _); auto.
    { destruct timeline as [|a tt]; [destruct V as [V _]; congruence|].
      destruct V as (_ & NT & ST).
      assert (HN := merge_nonempty tt (pace_fn (a :: tt)) a NT ST).
      destruct (merge_steps (a :: tt) (pace_fn (a :: tt))); [congruence|simpl; lia]. }
    assert (t0' = t0).
    { rewrite E1 in N0. rewrite (mid_nth _ _ _ _ L1) in N0. congruence. }
    subst t0'. rewrite E2, app_length in HL. simpl in HL.
    assert (goes_back i0 \/ goes_forth (length timeline) i0) as [B|B].
    { unfold goes_back, goes_forth. lia. }
    - specialize (DB B _ SB). simpl in DB. rewrite rev_length in DB. lia.
    - specialize (DF B _ SF). simpl in DF. lia. }
  destruct (call_split cb K i0 gi pace_fn fuel s_init timeline p0) as
      (t1 & t0' & t2 & l1 & s & l2 & E1 & L1 & E2 & Es & GB & GF & SB & SF & EC); auto.
  assert (t0' = t0).
  { rewrite E1 in N0. rewrite (mid_nth _ _ _ _ L1) in N0. congruence. }
  subst t0'. rewrite EC in H. apply two_pass_err in H; auto.
  destruct H as [H|[H|(-> & [[G L]|[G L]])]]; auto; exfalso.
  - specialize (DB G _ SB). lia.
  - specialize (DF G _ SF). lia.
Qed.

Lemma deep_two r (timeline pc : list T) t0 : InT t0 timeline -> deep_enough 2 r timeline pc t0.
Proof.
  intros I0 g [SG IG].
  assert (H : InT t0 g) by (apply IG; split; [auto | left; apply (InT_num _ _ I0)]).
  destruct g; simpl; [destruct (InT_nil _ H) | lia].
Qed.

(** *** Values of one-step methods *)
Lemma recursion_hd (f : S -> T -> T -> X -> S * X) ss s x0 g :
  exists l, snd (recursion f ss s x0 g) = (s, x0) :: l /\ map fst l = g.
Proof.
  revert ss s x0; induction g as [|t g IH]; intros ss s x0; simpl.
  - exists []; auto.
  - destruct (f ss s t x0) as [s' x'].
    destruct (IH s' t x') as (l & E & M).
    destruct (recursion f s' t x' g) as [s'' l'']. simpl in *.
    exists l''. split; auto. rewrite E. simpl. rewrite M; auto.
Qed.

Theorem call_values (cb : callbacks T S X Y) i0 gi pace_fn fuel s_init (timeline : list T) p0 t0 f out x0 :
  simple_cb cb f out -> total_cb cb -> nonadaptive cb ->
  (forall iv s t, cb_begin cb iv s [t] = Ok (s, [x0])) ->
  valid_timeline timeline -> start_index (length timeline) i0 p0 -> nth_error timeline p0 = Some t0 ->
  length timeline + length (pace_fn timeline) <= fuel ->
  exists tr st' s gb gf,
    @call T TO S X Y cb 2 i0 gi pace_fn fuel s_init [length timeline] timeline = (tr, Ok st') /\
    teqb s t0 = true /\ merge_steps timeline (pace_fn timeline) = rev gb ++ s :: gf /\
    grid_spec true timeline (pace_fn timeline) t0 (s :: gb) /\
    grid_spec false timeline (pace_fn timeline) t0 (s :: gf) /\
    let back := if (i0 =? 0)%Z then (s_init, []) else recursion f s_init s x0 gb in
    let forth := if (negb (i0 =? 0) && ((i0 =? -1) || (i0 =? Z.of_nat (length timeline) - 1)))%Z
                 then (fst back, []) else recursion f (fst back) s x0 gf in
    st_s st' = fst forth /\ length (st_xx st') = length timeline /\
    forall i ti, nth_error timeline i = Some ti ->
      exists t x, teqb ti t = true /\ nth_error (st_xx st') i = Some (Some (out x)) /\
        (i < p0 -> In (t, x) (snd back)) /\ (p0 < i -> In (t, x) (snd forth)) /\
        (i = p0 -> t = s /\ x = x0).
Proof.
  intros SC TC NA HB V SI N0 HF.
  assert (I0 : InT t0 timeline).
  { destruct V as (_ & N & _). apply nth_error_In in N0. apply InT_In; auto.
    rewrite Forall_forall in N; auto. }
  assert (BF := total_fills _ TC).
  assert (HL : 2 - 1 <= length (merge_steps timeline (pace_fn timeline))).
  { destruct timeline as [|a tt]; [destruct V as [V _]; congruence|].
    destruct V as (_ & NT & ST).
    assert (HN := merge_nonempty tt (pace_fn (a :: tt)) a NT ST).
    destruct (merge_steps (a :: tt) (pace_fn (a :: tt))); [congruence|simpl; lia]. }
  destruct (call_total cb 2 i0 gi pace_fn fuel s_init timeline p0 t0) as
    (tr & st' & EC & OUT & GSB & GSF); auto; try (intro; apply deep_two; auto).
  destruct (call_split cb 2 i0 gi pace_fn fuel s_init timeline p0) as
      (t1 & t0'' & t2 & l1 & s & l2 & E1 & L1 & E2 & Es & GB & GF & SB & SF & EC'); auto.
  assert (t0'' = t0).
  { rewrite E1 in N0. rewrite (mid_nth _ _ _ _ L1) in N0. congruence. }
  subst t0''. assert (TP := EC). rewrite EC' in TP.
  exists tr, st', s, (rev l1), l2.
  split; [exact EC|]. split; [exact Es|].
  split; [rewrite rev_involutive; exact E2|]. split; [exact SB|]. split; [exact SF|].
  apply two_pass_ok in TP. destruct TP as (trb & st1 & trf & -> & HBk & HFt).
  assert (EB : backb i0 = negb (i0 =? 0)%Z) by reflexivity.
  cbv zeta.
  assert (Q1 : st_s st1 = fst (if (i0 =? 0)%Z then (s_init, []) else recursion f s_init s x0 (rev l1)) /\
     states true trb = snd (if (i0 =? 0)%Z then (s_init, []) else recursion f s_init s x0 (rev l1)) /\
     pass_ok true trb).
  { rewrite EB in HBk. destruct (i0 =? 0)%Z; cbn [negb] in HBk.
    - destruct HBk as [-> ->]. repeat split; constructor.
    - assert (P : pass_ok true trb) by (apply generate_paths_ok in HBk; [apply HBk | auto]).
      destruct (generate_paths_total cb 2 true (t0 :: rev t1) (s :: rev l1) (fun i => p0 - i) fuel
                  (init_st gi s_init timeline t0)) as (trb' & st1' & E & Vs); auto.
      { simpl; lia. }
      { pose proof (merge_length timeline (pace_fn timeline)) as EX.
        rewrite E2, app_length in EX. simpl in *. rewrite rev_length. lia. }
      rewrite E in HBk. injection HBk as <- <-.
      eapply generate_paths_values in E; eauto. destruct E; auto. }
  destruct Q1 as (S1 & ST1 & PB).
  assert (FB : forthb i0 timeline = negb (negb (i0 =? 0) && ((i0 =? -1) || (i0 =? Z.of_nat (length timeline) - 1)))%Z).
  { unfold forthb. destruct (i0 =? 0)%Z; auto. }
  set (back := if (i0 =? 0)%Z then (s_init, []) else recursion f s_init s x0 (rev l1)) in *.
  assert (Q2 : st_s st' = fst (if (negb (i0 =? 0) && ((i0 =? -1) || (i0 =? Z.of_nat (length timeline) - 1)))%Z
                 then (fst back, []) else recursion f (fst back) s x0 l2) /\
     states false trf = snd (if (negb (i0 =? 0) && ((i0 =? -1) || (i0 =? Z.of_nat (length timeline) - 1)))%Z
                 then (fst back, []) else recursion f (fst back) s x0 l2) /\
     pass_ok false trf).
  { rewrite FB in HFt.
    destruct (negb (i0 =? 0) && ((i0 =? -1) || (i0 =? Z.of_nat (length timeline) - 1)))%Z; cbn [negb] in HFt.
    - destruct HFt as [-> ->]. repeat split; auto; constructor.
    - assert (P : pass_ok false trf) by (apply generate_paths_ok in HFt; [apply HFt | auto]).
      destruct (generate_paths_total cb 2 false (t0 :: t2) (s :: l2) (fun i => p0 + i) fuel
                  st1) as (trf' & st2' & E & Vs); auto.
      { simpl; lia. }
      { pose proof (merge_length timeline (pace_fn timeline)) as EX.
        rewrite E2, app_length in EX. simpl in *. lia. }
      rewrite E in HFt. injection HFt as <- <-.
      eapply generate_paths_values in E; eauto. rewrite <- S1. destruct E; auto. }
  destruct Q2 as (S2 & ST2 & PF).
  set (forth := if (negb (i0 =? 0) && ((i0 =? -1) || (i0 =? Z.of_nat (length timeline) - 1)))%Z
                 then (fst back, []) else recursion f (fst back) s x0 l2) in *.
  assert (SB0 := pass_states_nil _ _ PB). assert (SF0 := pass_states_nil _ _ PF). simpl in SB0, SF0.
  split; [exact S2|]. split; [apply OUT|].
  intros i ti Hi.
  assert (Hlt : i < length timeline) by (apply nth_error_Some; congruence).
  destruct (out_all _ _ _ _ _ _ OUT i Hlt) as (r & w & Hw & Ew & Ex & R1 & R2).
  destruct (out_time _ _ _ _ _ _ OUT r w Hw) as (ti' & Hti & Eti).
  rewrite Ew, Hi in Hti. injection Hti as <-.
  destruct (out_state _ _ _ _ _ _ OUT r w Hw) as (Hst & SR).
  exists (st_time w), (st_x w). split; auto. split.
  { rewrite Ex. destruct SR as (iv & s1 & s2 & j & CS). destruct SC as (_ & SC2 & _).
    rewrite SC2 in CS. injection CS as <- <-. auto. }
  rewrite states_app in Hst.
  split; [|split].
  - intro H. specialize (R1 H). subst r. rewrite SF0, app_nil_r, ST1 in Hst. auto.
  - intro H. specialize (R2 H). subst r. rewrite SB0, ST2 in Hst. auto.
  - intro H. rewrite H, N0 in Hi. injection Hi as <-.
    assert (HEAD : forall rv ss (g : list T), StronglySorted (before rv) (s :: g) ->
       In (st_time w, st_x w) (snd (recursion f ss s x0 g)) -> st_time w = s /\ st_x w = x0).
    { intros rv ss g SG HI. destruct (recursion_hd f ss s x0 g) as (l & EQ & M).
      rewrite EQ in HI. destruct HI as [HI|HI]; [inversion HI; auto|]. exfalso.
      apply (SS_head_notin rv s g SG). exists (st_time w). split.
      - rewrite <- M. apply (in_map fst) in HI. exact HI.
      - eapply teq_trans; eauto. }
    destruct r.
    + rewrite SF0, app_nil_r, ST1 in Hst. unfold back in Hst.
      destruct (i0 =? 0)%Z; [destruct Hst|]. eapply HEAD; eauto. apply SB.
    + rewrite SB0, ST2 in Hst. unfold forth in Hst.
      destruct (negb (i0 =? 0) && ((i0 =? -1) || (i0 =? Z.of_nat (length timeline) - 1)))%Z; [destruct Hst|].
      eapply HEAD; eauto. apply SF.
Qed.
End L.
