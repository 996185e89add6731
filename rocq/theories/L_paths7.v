(** Lemmas about the simulation engine: starting index, diagnostic counters. *)
From Coq Require Import List ZArith Bool Lia Sorting.Sorted.
From Verif Require Import Base BaseOrd M_paths S_paths L_ord L_paths L_paths2 L_paths3 L_paths4 L_paths5 L_paths6.
Import ListNotations.

Section L.
Context {T : Type} {TO : TOrd T} {TL : TOrdLaws T} {S X Y : Type}.
Notation event := (event T X Y).
Notation st_t := (st_t T S Y).

Theorem call_negative (cb : callbacks T S X Y) K i0 gi pace_fn fuel s_init shape (timeline : list T) :
  (- Z.of_nat (length timeline) < i0 < 0)%Z ->
  call cb K i0 gi pace_fn fuel s_init shape timeline =
  call cb K (i0 + Z.of_nat (length timeline)) gi pace_fn fuel s_init shape timeline.
Proof.
  intro H. unfold call.
  assert (E : norm_index (length timeline) i0 =
              norm_index (length timeline) (i0 + Z.of_nat (length timeline))).
  { assert (start_index (length timeline) i0 (Z.to_nat (i0 + Z.of_nat (length timeline)))) as H1
      by (right; lia).
    assert (start_index (length timeline) (i0 + Z.of_nat (length timeline))
              (Z.to_nat (i0 + Z.of_nat (length timeline)))) as H2 by (left; lia).
    apply norm_index_spec in H1, H2. congruence. }
  rewrite E.
  assert (E0 : (i0 =? 0)%Z = false) by (apply Z.eqb_neq; lia).
  assert (E1 : (i0 + Z.of_nat (length timeline) =? 0)%Z = false) by (apply Z.eqb_neq; lia).
  rewrite E0, E1. cbn [negb orb].
  assert (E2 : ((i0 =? -1) || (i0 =? Z.of_nat (length timeline) - 1))%Z =
    ((i0 + Z.of_nat (length timeline) =? -1) ||
     (i0 + Z.of_nat (length timeline) =? Z.of_nat (length timeline) - 1))%Z).
  { apply eq_iff_eq_true. rewrite !orb_true_iff, !Z.eqb_eq. lia. }
  rewrite E2. reflexivity.
Qed.

(** in a recursion along a strictly ordered grid times identify values *)
Lemma recursion_times (f : S -> T -> T -> X -> S * X) ss s x0 g :
  map fst (snd (recursion f ss s x0 g)) = s :: g.
Proof.
  destruct (recursion_hd f ss s x0 g) as (l & -> & M). simpl. rewrite M; auto.
Qed.

Lemma sorted_functional r (l : list (T * X)) t t' x x' ti :
  StronglySorted (before r) (map fst l) -> In (t, x) l -> In (t', x') l ->
  teqb ti t = true -> teqb ti t' = true -> (t, x) = (t', x').
Proof.
  induction l as [|[a b] l IH]; simpl; intros SO H H' E E'; [destruct H|].
  inversion_clear SO as [|? ? SO1 F]. rewrite Forall_forall in F.
  assert (TT : teqb t t' = true) by (eapply teq_trans; [apply teq_sym|]; eauto).
  destruct H as [H|H], H' as [H'|H'].
  - congruence.
  - exfalso. injection H as <- <-. apply (before_irrefl r a t'); auto.
    apply F. apply (in_map fst) in H'. exact H'.
  - exfalso. injection H' as <- <-. apply (before_irrefl r a t); [apply teq_sym; auto|].
    apply F. apply (in_map fst) in H. exact H.
  - eauto.
Qed.

Lemma list_eq_nth {A} (l l' : list A) : length l = length l' ->
  (forall i, i < length l -> nth_error l i = nth_error l' i) -> l = l'.
Proof.
  revert l'; induction l as [|a l IH]; intros [|b l'] HL H; simpl in *; try discriminate; auto.
  f_equal.
  - specialize (H 0 ltac:(lia)). simpl in H. congruence.
  - apply IH; auto. intros i Hi. apply (H (Datatypes.S i)). lia.
Qed.

Lemma first_grid (timeline pc : list T) a tt gb s : timeline = a :: tt -> valid_timeline timeline ->
  teqb s a = true -> grid_spec true timeline pc a (s :: gb) -> gb = [].
Proof.
  intros -> (NE & NT & ST) Es [SG IG]. destruct gb as [|b gb]; auto. exfalso.
  inversion_clear SG as [|? ? _ F]. inversion_clear F as [|? ? B _].
  assert (Nb := proj2 (before_num _ _ _ B)).
  assert (IB : InT b (s :: b :: gb)) by (apply InT_In; [auto | right; left; auto]).
  apply IG in IB. destruct IB as [IB _].
  assert (IM : InT b (merge_steps (a :: tt) pc)) by (apply (merge_InT tt pc a NT ST); exact IB).
  destruct IM as [u [Hu Eu]]. destruct (merge_range tt pc a NT ST u Hu) as [R _].
  rewrite <- (tleb_eq_r b u a Eu) in R. apply tleb_iff in R.
  assert (BA : before false b a).
  { apply (before_eq_r false s a b Es). exact B. }
  destruct R as [R|R].
  - eapply before_asym; eauto.
  - apply (before_irrefl false b a); auto. apply teq_sym; auto.
Qed.

Theorem call_minus_len (cb : callbacks T S X Y) gi pace_fn fuel s_init (timeline : list T) f out x0 :
  simple_cb cb f out -> total_cb cb -> nonadaptive cb ->
  (forall iv s t, cb_begin cb iv s [t] = Ok (s, [x0])) ->
  valid_timeline timeline ->
  length timeline + length (pace_fn timeline) <= fuel ->
  exists tr st' tr2 st2,
    call cb 2 (- Z.of_nat (length timeline)) gi pace_fn fuel s_init [length timeline] timeline = (tr, Ok st') /\
    call cb 2 0 gi pace_fn fuel s_init [length timeline] timeline = (tr2, Ok st2) /\
    st_xx st' = st_xx st2 /\ st_s st' = st_s st2.
Proof.
  intros SC TC NA HB V HF.
  assert (exists a tt, timeline = a :: tt) as (a & tt & ET).
  { destruct V as [V _]. destruct timeline; [congruence | eauto]. }
  assert (N0 : nth_error timeline 0 = Some a) by (rewrite ET; auto).
  assert (LP : 0 < length timeline) by (rewrite ET; simpl; lia).
  destruct (call_values cb (- Z.of_nat (length timeline)) gi pace_fn fuel s_init timeline 0 a f out x0)
    as (tr & st' & s & gb & gf & E & Es & EM & GB & GF & ST & LX & VAL); auto.
  { right. lia. }
  destruct (call_values cb 0 gi pace_fn fuel s_init timeline 0 a f out x0)
    as (tr2 & st2 & s2 & gb2 & gf2 & E2 & Es2 & EM2 & GB2 & GF2 & ST2 & LX2 & VAL2); auto.
  { left. lia. }
  assert (gb = []) by (eapply first_grid; [exact ET | exact V | exact Es | exact GB]). subst gb.
  assert (gb2 = []) by (eapply first_grid; [exact ET | exact V | exact Es2 | exact GB2]). subst gb2.
  simpl in EM, EM2. rewrite EM in EM2. injection EM2 as <- <-.
  replace (- Z.of_nat (length timeline) =? 0)%Z with false in * by (symmetry; apply Z.eqb_neq; lia).
  cbn [negb andb recursion fst snd Z.eqb] in *.
  exists tr, st', tr2, st2. split; auto. split; auto.
  destruct (((- Z.of_nat (length timeline) =? -1) ||
             (- Z.of_nat (length timeline) =? Z.of_nat (length timeline) - 1))%Z) eqn:Q.
  - (* one point timeline *)
    assert (length timeline = 1) as L1.
    { apply orb_true_iff in Q. rewrite !Z.eqb_eq in Q. lia. }
    assert (gf = []) as ->.
    { destruct gf as [|b gf]; auto. exfalso. destruct GF as [SG IG].
      inversion_clear SG as [|? ? _ F]. inversion_clear F as [|? ? B _].
      assert (Nb := proj2 (before_num _ _ _ B)).
      assert (IB : InT b (s :: b :: gf)) by (apply InT_In; [auto | right; left; auto]).
      apply IG in IB. destruct IB as [IB _]. rewrite ET in L1. destruct tt; [|discriminate].
      rewrite ET in IB.
      assert (before false a b) by (apply (before_eq_l false s a b Es); auto).
      assert (NE : ~ InT b [a]).
      { intros [u [[<-|[]] Eu]]. apply (before_irrefl false a b); auto. apply teq_sym; auto. }
      destruct IB as [IB|[_ (u & v & _ & [w [[<-|[]] Ew]] & _ & IB)]]; [tauto|].
      rewrite (tleb_eq_r v a b Ew) in IB. apply tleb_iff in IB. destruct IB as [IB|IB].
      - eapply before_asym; eauto.
      - apply (before_irrefl false a b); auto. apply teq_sym; auto. }
    simpl in *. split; [|congruence].
    apply list_eq_nth; [congruence|]. rewrite LX. intros i Hi. assert (i = 0) by lia; subst i.
    destruct (VAL 0 a N0) as (t & x & _ & -> & _ & _ & H). destruct (H eq_refl) as [-> ->].
    destruct (VAL2 0 a N0) as (t & x & _ & -> & _ & _ & H2). destruct (H2 eq_refl) as [-> ->]. auto.
  - split; [|congruence].
    apply list_eq_nth; [congruence|]. rewrite LX. intros i Hi.
    destruct (nth_error timeline i) as [ti|] eqn:Ni; [|apply nth_error_None in Ni; lia].
    destruct (VAL i ti Ni) as (t & x & Et & -> & _ & HF1 & H0).
    destruct (VAL2 i ti Ni) as (t' & x' & Et' & -> & _ & HF2 & H0').
    do 3 f_equal. destruct i as [|i].
    + destruct (H0 eq_refl) as [_ ->]. destruct (H0' eq_refl) as [_ ->]. auto.
    + assert ((t, x) = (t', x')) as EE; [|congruence].
      eapply (sorted_functional false); [|apply HF1; lia|apply HF2; lia|exact Et|exact Et'].
      rewrite recursion_times. apply GF.
Qed.

(** *** diagnostic counters *)
Lemma nth_last {A} (d : A) (l : list A) : nth (length l - 1) l d = last l d.
Proof.
  induction l as [|x l IH]; auto. destruct l as [|y l]; auto.
  simpl length in *. simpl. simpl in IH. rewrite Nat.sub_0_r in IH. rewrite IH. reflexivity.
Qed.

Lemma generate_paths_info (cb : callbacks T S X Y) rv t0 tt s steps view fuel (st : st_t) (tr : list event) st' inf :
  begin_fills cb -> teqb s t0 = true ->
  generate_paths cb 2 rv (t0 :: tt) (s :: steps) view fuel st = (tr, Ok st') ->
  st_info st = Some inf ->
  st_info st' = Some (mkInfo (info_t0 inf) (info_tmin inf) (info_tmax inf)
                        (nsteps tr + computed_steps inf) (length tt + stored_steps inf)).
Proof.
  intros BF E0 H HI. unfold M_paths.generate_paths in H.
  apply wbind_ok in H. destruct H as (trz & [l todo] & tr1 & E & H & ->).
  apply wlift_ok in E. destruct E as [E ->]. simpl in E. injection E as <- <-.
  apply wbind_ok in H. destruct H as (trb & [s1 l1] & trc & E1 & H & ->).
  apply wlift_ok in E1. destruct E1 as [E1 ->].
  assert (BL := BF _ _ _ _ _ E1). destruct l1 as [|x0 [|]]; try discriminate.
  apply wbind_ok in H. destruct H as (tr0 & [st1 n] & trd & E2 & H & ->).
  simpl in E2. apply wbind_ok in E2. destruct E2 as (tra & [st3 m] & trh & E5 & E6 & ->).
  apply sir_ok in E5. destruct E5 as (_ & _ & NA & ti & Hti & _ & C).
  simpl in Hti. injection Hti as <-.
  destruct C as [(-> & Et & s' & y & CS & _ & -> & ->)|(_ & F & _)].
  2: { apply teq_sym in E0. congruence. }
  unfold wret in E6. injection E6 as <- <- <-.
  apply wbind_ok in H. destruct H as (tr2 & st2 & tre & E3 & H & ->).
  apply wbind_ok in H. destruct H as (trf & s2 & trg & E4 & H & ->).
  apply wlift_ok in E4. destruct E4 as [E4 ->]. unfold wret in H. injection H as <- <-.
  apply main_loop_ok in E3; [|simpl; lia|discriminate].
  destruct E3 as (_ & IX & _ & _ & _ & INF & _).
  simpl in INF. rewrite (INF inf HI).
  assert (LS : length (stores rv tr2) = length tt).
  { rewrite <- (map_length st_idx), IX, map_length, seq_length. simpl. lia. }
  rewrite LS. cbn [st_info].
  match goal with |- Some (mkInfo _ _ _ (?a + _) _) = Some (mkInfo _ _ _ (?b + _) _) =>
    assert (a = b) as -> end; [|reflexivity].
  rewrite !nsteps_app. unfold nsteps; simpl. lia.
Qed.

Theorem call_counters (cb : callbacks T S X Y) i0 pace_fn fuel s_init shape (timeline : list T) tr st' :
  begin_fills cb ->
  call cb 2 i0 true pace_fn fuel s_init shape timeline = (tr, Ok st') ->
  exists p0 t0 tmin tmax, start_index (length timeline) i0 p0 /\ nth_error timeline p0 = Some t0 /\
    hd_error timeline = Some tmin /\ nth_error timeline (length timeline - 1) = Some tmax /\
    st_info st' = Some (mkInfo t0 tmin tmax (nsteps tr) (length timeline - 1)).
Proof.
  intros BF EC.
  destruct (call_any _ _ _ _ _ _ _ _ _ _ _ BF EC) as (_ & -> & V & p0 & t0 & SI & N0 & _).
  assert (HL : 2 - 1 <= length (merge_steps timeline (pace_fn timeline))).
  { destruct timeline as [|a tt]; [destruct V as [V _]; congruence|].
    destruct V as (_ & NT & ST).
    assert (HN := merge_nonempty tt (pace_fn (a :: tt)) a NT ST).
    destruct (merge_steps (a :: tt) (pace_fn (a :: tt))); [congruence|simpl; lia]. }
  destruct (call_split cb 2 i0 true pace_fn fuel s_init timeline p0) as
      (t1 & t0'' & t2 & l1 & s & l2 & E1 & L1 & E2 & Es & GB & GF & SB & SF & EC'); auto.
  assert (t0'' = t0).
  { rewrite E1 in N0. rewrite (mid_nth _ _ _ _ L1) in N0. congruence. }
  subst t0''. rewrite EC' in EC.
  assert (exists a tt, timeline = a :: tt) as (a & tt & ET).
  { destruct V as [V _]. destruct timeline; [congruence | eauto]. }
  exists p0, t0, a, (last timeline t0). split; auto. split; auto.
  split; [rewrite ET; auto|]. split.
  { rewrite (nth_error_nth' timeline t0) by (rewrite ET; simpl; lia). f_equal.
    apply nth_last. }
  apply two_pass_ok in EC. destruct EC as (trb & st1 & trf & -> & HB & HF).
  assert (IB : st_info st1 = Some (mkInfo t0 a (last timeline t0) (nsteps trb)
                  (if backb i0 then p0 else 0))).
  { assert (I0 : st_info (init_st (Y := Y) true s_init timeline t0) = Some (mkInfo t0 a (last timeline t0) 0 0)).
    { simpl. rewrite ET. reflexivity. }
    destruct (backb i0).
    - eapply generate_paths_info in HB; eauto. rewrite HB. simpl. rewrite rev_length, L1, !Nat.add_0_r. auto.
    - destruct HB as [-> ->]. exact I0. }
  assert (IF : st_info st' = Some (mkInfo t0 a (last timeline t0) (nsteps trb + nsteps trf)
                  ((if backb i0 then p0 else 0) + (if forthb i0 timeline then length timeline - 1 - p0 else 0)))).
  { destruct (forthb i0 timeline).
    - eapply generate_paths_info in HF; eauto. rewrite HF. simpl. f_equal. f_equal; [lia|].
      rewrite E1, app_length, L1. simpl. lia.
    - destruct HF as [-> ->]. rewrite IB. f_equal. f_equal; unfold nsteps; simpl; lia. }
  rewrite IF, nsteps_app. do 2 f_equal.
  assert (B := backb_spec i0). assert (F := forthb_spec i0 timeline).
  unfold goes_back, goes_forth in *. unfold start_index in SI.
  destruct (backb i0), (forthb i0 timeline); clear - SI B F;
    [ lia | | | ];
    try (assert (~ (i0 <> 0))%Z by (intro Q; apply B in Q; discriminate));
    try (assert (~ (i0 = 0 \/ i0 <> -1 /\ i0 <> Z.of_nat (length timeline) - 1))%Z
           by (intro Q; apply F in Q; discriminate)); lia.
Qed.

(** number of steps = number of grid points minus one *)
Theorem call_computed (cb : callbacks T S X Y) i0 pace_fn fuel s_init (timeline : list T) p0 tmin g :
  total_cb cb -> nonadaptive cb -> valid_timeline timeline ->
  start_index (length timeline) i0 p0 -> hd_error timeline = Some tmin ->
  length timeline + length (pace_fn timeline) <= fuel ->
  grid_spec false timeline (pace_fn timeline) tmin g ->
  exists tr st' inf,
    call cb 2 i0 true pace_fn fuel s_init [length timeline] timeline = (tr, Ok st') /\
    st_info st' = Some inf /\ Datatypes.S (computed_steps inf) = length g /\
    Datatypes.S (stored_steps inf) = length timeline.
Proof.
  intros TC NA V SI HT HF G.
  destruct (valid_split timeline i0 p0 V SI) as (t0 & N0 & I0).
  assert (BF := total_fills _ TC).
  destruct (call_total cb 2 i0 true pace_fn fuel s_init timeline p0 t0) as (tr & st' & EC & OUT & GB & GF); auto;
    try (intro; apply deep_two; auto).
  destruct (call_counters cb i0 pace_fn fuel s_init _ timeline tr st' BF EC)
    as (p0' & t0' & tmin' & tmax' & SI' & N0' & HT' & _ & INF).
  assert (p0' = p0) by (apply norm_index_spec in SI, SI'; congruence). subst p0'.
  eexists tr, st', _. split; [exact EC|]. split; [exact INF|]. simpl.
  assert (exists a tt, timeline = a :: tt) as (a & tt & ET).
  { destruct V as [V _]. destruct timeline; [congruence | eauto]. }
  assert (tmin = a) by (rewrite ET in HT; simpl in HT; congruence). subst tmin.
  assert (Ia : InT a timeline).
  { destruct V as (_ & N & _). rewrite ET in *. inversion_clear N. apply InT_In; auto. left; auto. }
  split; [|rewrite ET; simpl; lia].
  rewrite (grid_length _ _ _ _ _ _ V Ia G (merge_is_grid timeline (pace_fn timeline) a tt ET V)).
  assert (HL : 2 - 1 <= length (merge_steps timeline (pace_fn timeline))).
  { destruct V as (_ & NT & ST). rewrite ET in *.
    assert (HN := merge_nonempty tt (pace_fn (a :: tt)) a NT ST).
    destruct (merge_steps (a :: tt) (pace_fn (a :: tt))); [congruence|simpl; lia]. }
  destruct (call_split cb 2 i0 true pace_fn fuel s_init timeline p0) as
      (t1 & t0'' & t2 & l1 & s & l2 & E1 & L1 & E2 & Es & GPB & GPF & SB & SF & EC'); auto.
  assert (t0'' = t0).
  { rewrite E1 in N0. rewrite (mid_nth _ _ _ _ L1) in N0. congruence. }
  subst t0''. rewrite EC' in EC. rewrite E2, app_length. simpl.
  apply two_pass_ok in EC. destruct EC as (trb & st1 & trf & -> & HB & HFo).
  rewrite nsteps_app.
  assert (NB : nsteps trb = length l1).
  { destruct (backb i0) eqn:B.
    - destruct (generate_paths_ok _ _ _ _ _ _ _ _ _ _ BF HB) as (P & _ & _ & _ & _ & LV & _).
      assert (GO : goes_back i0) by (apply backb_spec; auto).
      specialize (GB GO). rewrite visited_app in GB.
      assert (PF : visited true trf = []).
      { destruct (forthb i0 timeline).
        - destruct (generate_paths_ok _ _ _ _ _ _ _ _ _ _ BF HFo) as (P2 & _).
          apply (pass_stores_nil false _ P2).
        - destruct HFo as [-> _]; auto. }
      rewrite PF, app_nil_r in GB.
      rewrite (grid_length _ _ _ _ _ _ V I0 GB SB) in LV. simpl in LV. rewrite rev_length in LV. lia.
    - destruct HB as [-> _].
      assert (p0 = 0).
      { assert (NG : ~ goes_back i0) by (intro Q; apply backb_spec in Q; congruence).
        unfold goes_back in NG. unfold start_index in SI. lia. }
      assert (t0 = a) by (rewrite H, ET in N0; simpl in N0; congruence). rewrite H0 in Es, SB.
      assert (Q := first_grid timeline (pace_fn timeline) a tt (rev l1) s ET V Es SB).
      apply (f_equal (@length T)) in Q. rewrite rev_length in Q. simpl in Q. unfold nsteps; simpl; lia. }
  assert (NF : nsteps trf = length l2).
  { destruct (forthb i0 timeline) eqn:B.
    - destruct (generate_paths_ok _ _ _ _ _ _ _ _ _ _ BF HFo) as (P & _ & _ & _ & _ & LV & _).
      assert (GO : goes_forth (length timeline) i0) by (apply forthb_spec; auto).
      specialize (GF GO). rewrite visited_app in GF.
      assert (PF : visited false trb = []).
      { destruct (backb i0).
        - destruct (generate_paths_ok _ _ _ _ _ _ _ _ _ _ BF HB) as (P2 & _).
          apply (pass_stores_nil true _ P2).
        - destruct HB as [-> _]; auto. }
      rewrite PF in GF. simpl in GF.
      rewrite (grid_length _ _ _ _ _ _ V I0 GF SF) in LV. simpl in LV. lia.
    - destruct HFo as [-> _].
      assert (NG : ~ goes_forth (length timeline) i0) by (intro Q; apply forthb_spec in Q; congruence).
      assert (Datatypes.S p0 = length timeline).
      { unfold goes_forth in NG. unfold start_index in SI. lia. }
      assert (t2 = []).
      { rewrite E1, app_length, L1 in H. simpl in H. destruct t2; auto. simpl in H. lia. }
      subst t2.
      (* the forward grid has the only timeline point t0, which is the last *)
      destruct l2 as [|b l2]; auto. exfalso.
      destruct GPF as (SG & NG' & _ & _ & _ & HLs).
      specialize (HLs s ltac:(discriminate)).
      destruct HLs as [u [[<-|[]] Eu]].
      assert (before false s (last (b :: l2) s)) by (apply SS_last; [exact SG | discriminate]).
      change (last (s :: b :: l2) s) with (last (b :: l2) s) in Eu.
      apply (before_irrefl false s (last (b :: l2) s)); auto.
      eapply teq_trans; [exact Es | apply teq_sym; exact Eu]. }
  lia.
Qed.
End L.
