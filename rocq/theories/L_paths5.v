(** Lemmas about the simulation engine: properties of whole runs. *)
From Coq Require Import List ZArith Bool Lia Sorting.Sorted.
From Verif Require Import Base BaseOrd M_paths S_paths L_ord L_paths L_paths2 L_paths3 L_paths4.
Import ListNotations.

Lemma map_sub_seq p m : m <= p + 1 ->
  map (fun i => p - i) (seq 0 m) = rev (seq (p + 1 - m) m).
Proof.
  induction m as [|m IH]; intro H; auto.
  rewrite seq_S, map_app, IH by lia. simpl.
  replace (p + 1 - S m) with (p - m) by lia. replace (p + 1 - m) with (S (p - m)) by lia.
  reflexivity.
Qed.

Lemma map_add_seq p m : map (fun i => p + i) (seq 0 m) = seq p m.
Proof.
  assert (H : forall k, map (fun i => p + i) (seq k m) = seq (p + k) m).
  { induction m as [|m IH]; intro k; simpl; auto. f_equal.
    rewrite <- Nat.add_succ_r. apply IH. }
  rewrite H, Nat.add_0_r. reflexivity.
Qed.

Section L.
Context {T : Type} {TO : TOrd T} {TL : TOrdLaws T} {S X Y : Type}.
Notation event := (event T X Y).
Notation st_t := (st_t T S Y).

Lemma stores_index (timeline l : list T) (ws : list (nat * T * X * Y)) view
      (R : T -> nat * T * X * Y -> Prop) :
  Forall2 R l ws -> map st_idx ws = map view (seq 0 (length l)) ->
  (forall k t, nth_error l k = Some t -> nth_error timeline (view k) = Some t) ->
  forall w, In w ws -> exists ti, nth_error timeline (st_idx w) = Some ti /\ R ti w.
Proof.
  intros F M V w Hw. apply In_nth_error in Hw. destruct Hw as [k Hk].
  assert (exists t, nth_error l k = Some t /\ R t w) as (t & Ht & HR).
  { clear - F Hk. revert k Hk. induction F as [|t v l ws H F IH]; intros [|k] Hk; try discriminate.
    - injection Hk as ->. exists t; auto.
    - apply IH; auto. }
  exists t. split; auto.
  assert (st_idx w = view k) as ->.
  { assert (E : nth_error (map st_idx ws) k = Some (st_idx w)) by (rewrite nth_error_map, Hk; auto).
    rewrite M, nth_error_map in E.
    assert (k < length l) by (apply nth_error_Some; congruence).
    rewrite (nth_error_nth' _ 0) in E by (rewrite seq_length; auto).
    rewrite seq_nth in E by auto. simpl in E. congruence. }
  auto.
Qed.

Lemma nth_error_mid {A} (l1 : list A) a l2 k x :
  nth_error (a :: l2) k = Some x -> nth_error (l1 ++ a :: l2) (length l1 + k) = Some x.
Proof.
  intro H. rewrite nth_error_app2 by lia. replace (length l1 + k - length l1) with k by lia. auto.
Qed.
Lemma nth_error_mid_rev {A} (l1 : list A) a l2 k x :
  nth_error (a :: rev l1) k = Some x -> nth_error (l1 ++ a :: l2) (length l1 - k) = Some x.
Proof.
  intro H. destruct k as [|k].
  - rewrite Nat.sub_0_r. rewrite nth_error_app2, Nat.sub_diag by lia. auto.
  - simpl in H. assert (k < length l1) by (rewrite <- rev_length; apply nth_error_Some; congruence).
    rewrite nth_error_app1 by lia.
    destruct (rev l1) as [|d r] eqn:R.
    { apply (f_equal (@length A)) in R. rewrite rev_length in R. simpl in R. lia. }
    rewrite <- R in H. apply (nth_error_nth _ _ d) in H.
    rewrite rev_nth in H by lia. rewrite (nth_error_nth' l1 d) by lia. f_equal. rewrite <- H.
    f_equal. 
Qed.

Section Two.
Variable cb : callbacks T S X Y.
Variable K : nat.
Variable i0 : Z.
Variable gi : bool.
Variable fuel : nat.
Variable s_init : S.

Lemma two_pass_ok timeline p0 t1 t0 t2 l1 s l2 tr st' :
  two_pass cb K i0 gi fuel s_init timeline p0 t1 t0 t2 l1 s l2 = (tr, Ok st') ->
  exists trb st1 trf, tr = trb ++ trf /\
   (if backb i0 then
     generate_paths cb K true (t0 :: rev t1) (s :: rev l1) (fun i => p0 - i) fuel (init_st gi s_init timeline t0)
       = (trb, Ok st1) else trb = [] /\ st1 = init_st gi s_init timeline t0) /\
   (if forthb i0 timeline then
     generate_paths cb K false (t0 :: t2) (s :: l2) (fun i => p0 + i) fuel st1
       = (trf, Ok st') else trf = [] /\ st' = st1).
Proof.
  intro H. apply wbind_ok in H. destruct H as (trb & st1 & trf & H1 & H2 & ->).
  exists trb, st1, trf. split; auto. split.
  - destruct (backb i0); auto. unfold wret in H1. injection H1 as <- <-; auto.
  - destruct (forthb i0 timeline); auto. unfold wret in H2. injection H2 as <- <-; auto.
Qed.

Lemma pass_stores_nil rv (tr : list event) : pass_ok rv tr ->
  stores (negb rv) tr = [] /\ visited (negb rv) tr = [] .
Proof. apply pass_ok_other. Qed.

Lemma pass_states_nil rv (tr : list event) : pass_ok rv tr -> states (negb rv) tr = [].
Proof.
  induction 1 as [|e tr H F IH]; simpl; auto. rewrite IH, H.
  replace (Bool.eqb rv (negb rv)) with false by (destruct rv; auto). auto.
Qed.

Theorem two_pass_outputs timeline p0 t1 t0 t2 l1 s l2 tr st' :
  begin_fills cb ->
  timeline = t1 ++ t0 :: t2 -> length t1 = p0 -> start_index (length timeline) i0 p0 ->
  two_pass cb K i0 gi fuel s_init timeline p0 t1 t0 t2 l1 s l2 = (tr, Ok st') ->
  outputs_ok (store_rel cb) timeline i0 p0 tr (st_xx st').
Proof.
  intros BF EL LT SI H.
  assert (Hp := start_index_lt _ _ _ SI).
  apply two_pass_ok in H. destruct H as (trb & st1 & trf & -> & HB & HF).
  assert (FB : pass_ok true trb /\ 
    (goes_back i0 -> map st_idx (stores true trb) = rev (seq 0 (p0 + 1))) /\
    (~ goes_back i0 -> trb = []) /\
    (forall w, In w (stores true trb) -> exists ti, nth_error timeline (st_idx w) = Some ti /\ teqb ti (st_time w) = true) /\
    (forall w, In w (stores true trb) -> In (st_time w, st_x w) (states true trb) /\ (store_rel cb) (st_time w) (st_x w) (st_val w)) /\
    st_xx st1 = apply_writes (stores true trb) (repeat None (length timeline))).
  { destruct (backb i0) eqn:B.
    - assert (HS := generate_paths_stored _ _ _ _ _ _ _ _ _ _ HB).
      apply (generate_paths_ok _ _ _ _ _ _ _ _ _ _ BF) in HB.
      destruct HB as (P & I & F & XX & _). rewrite Forall_forall in HS.
      split; auto. split; [|split; [|split; [|split]]]; auto.
      + intros _. rewrite I. simpl length. rewrite rev_length, LT.
        rewrite map_sub_seq by lia.
        replace (p0 + 1 - Datatypes.S p0) with 0 by lia. rewrite Nat.add_1_r; auto.
      + intro NB. exfalso. apply NB, backb_spec; auto.
      + eapply (stores_index timeline); [exact F | exact I |].
        intros k t Hk. rewrite EL, <- LT. apply nth_error_mid_rev; auto.
    - destruct HB as [-> ->]. split; [constructor|]. split; [|split; [|split; [|split]]]; auto.
      + intro HB. apply backb_spec in HB. congruence.
      + intros w [].
      + intros w []. }
  destruct FB as (PB & IB & NB & TB & SB & XB).
  assert (FF : pass_ok false trf /\ 
    (goes_forth (length timeline) i0 -> map st_idx (stores false trf) = seq p0 (length timeline - p0)) /\
    (~ goes_forth (length timeline) i0 -> trf = []) /\
    (forall w, In w (stores false trf) -> exists ti, nth_error timeline (st_idx w) = Some ti /\ teqb ti (st_time w) = true) /\
    (forall w, In w (stores false trf) -> In (st_time w, st_x w) (states false trf) /\ (store_rel cb) (st_time w) (st_x w) (st_val w)) /\
    st_xx st' = apply_writes (stores false trf) (st_xx st1)).
  { destruct (forthb i0 timeline) eqn:B.
    - assert (HS := generate_paths_stored _ _ _ _ _ _ _ _ _ _ HF).
      apply (generate_paths_ok _ _ _ _ _ _ _ _ _ _ BF) in HF.
      destruct HF as (P & I & F & XX & _). rewrite Forall_forall in HS.
      split; auto. split; [|split; [|split; [|split]]]; auto.
      + intros _. rewrite I. rewrite map_add_seq. f_equal. rewrite EL, app_length, LT. simpl. lia.
      + intro NF. exfalso. apply NF, forthb_spec; auto.
      + eapply (stores_index timeline); [exact F | exact I |].
        intros k t Hk. rewrite EL, <- LT. apply nth_error_mid; auto.
    - destruct HF as [-> ->]. split; [constructor|]. split; [|split; [|split; [|split]]]; auto.
      + intro HF. apply forthb_spec in HF. congruence.
      + intros w [].
      + intros w []. }
  destruct FF as (PF & IF & NF & TF & SF & XF).
  assert (S1 : stores true (trb ++ trf) = stores true trb).
  { rewrite stores_app. destruct (pass_stores_nil _ _ PF) as [E _]. simpl in E. rewrite E, app_nil_r; auto. }
  assert (S2 : stores false (trb ++ trf) = stores false trf).
  { rewrite stores_app. destruct (pass_stores_nil _ _ PB) as [E _]. simpl in E. rewrite E; auto. }
  assert (V1 : visited true (trb ++ trf) = visited true trb).
  { rewrite visited_app. destruct (pass_stores_nil _ _ PF) as [_ E]. simpl in E. rewrite E, app_nil_r; auto. }
  assert (V2 : visited false (trb ++ trf) = visited false trf).
  { rewrite visited_app. destruct (pass_stores_nil _ _ PB) as [_ E]. simpl in E. rewrite E; auto. }
  assert (ST1 : states true (trb ++ trf) = states true trb).
  { rewrite states_app. assert (E := pass_states_nil _ _ PF). simpl in E. rewrite E, app_nil_r; auto. }
  assert (ST2 : states false (trb ++ trf) = states false trf).
  { rewrite states_app. assert (E := pass_states_nil _ _ PB). simpl in E. rewrite E; auto. }
  assert (XX : st_xx st' = apply_writes (stores true trb ++ stores false trf) (repeat None (length timeline))).
  { rewrite XF, XB, <- apply_writes_app; auto. }
  constructor.
  - intro GB. rewrite S1; auto.
  - intro GB. rewrite S1, V1. rewrite NB; auto.
  - intro GF. rewrite S2; auto.
  - intro GF. rewrite S2, V2. rewrite NF; auto.
  - intros [] w Hw; [rewrite S1 in Hw | rewrite S2 in Hw]; auto.
  - intros [] w Hw; [rewrite S1 in Hw; rewrite ST1 | rewrite S2 in Hw; rewrite ST2]; auto.
  - rewrite XX, apply_writes_length, repeat_length; auto.
  - intros i Hi. rewrite XX, apply_writes_nth by (rewrite repeat_length; auto).
    assert (DEC : goes_back i0 \/ ~ goes_back i0) by (unfold goes_back; lia).
    assert (DEC2 : goes_forth (length timeline) i0 \/ ~ goes_forth (length timeline) i0).
    { unfold goes_forth; lia. }
    assert (SOME : exists w, In w (stores true trb ++ stores false trf) /\ st_idx w = i).
    { assert (i <= p0 /\ goes_back i0 \/ p0 <= i /\ goes_forth (length timeline) i0) as [[H1 H2]|[H1 H2]].
      { unfold goes_back, goes_forth, start_index in *. lia. }
      - assert (HI : In i (map st_idx (stores true trb))).
        { rewrite IB by auto. apply -> in_rev. apply in_seq. lia. }
        apply in_map_iff in HI. destruct HI as (w & E & Hw). exists w; split; auto.
        apply in_or_app; auto.
      - assert (HI : In i (map st_idx (stores false trf))).
        { rewrite IF by auto. apply in_seq. lia. }
        apply in_map_iff in HI. destruct HI as (w & E & Hw). exists w; split; auto.
        apply in_or_app; auto. }
    destruct (last_write_in i _ (nth i (repeat None (length timeline)) None) SOME) as (w & Hw & Ew & Lw).
    rewrite Lw. apply in_app_or in Hw. destruct Hw as [Hw|Hw].
    + exists true, w. rewrite S1. repeat split; auto. intro GT. exfalso.
      destruct DEC as [D|D]; [|rewrite NB in Hw by auto; destruct Hw].
      assert (HI : In (st_idx w) (map st_idx (stores true trb))) by (apply in_map; auto).
      rewrite IB in HI by auto. apply in_rev in HI. apply in_seq in HI. lia.
    + exists false, w. rewrite S2. repeat split; auto. intro LT'. exfalso.
      destruct DEC2 as [D|D]; [|rewrite NF in Hw by auto; destruct Hw].
      assert (HI : In (st_idx w) (map st_idx (stores false trf))) by (apply in_map; auto).
      rewrite IF in HI by auto. apply in_seq in HI. lia.
Qed.
End Two.

(** visited points of one pass are strictly ordered, whatever the steps *)
Lemma Sorted_glue r (l : list T) k :
  Sorted (before r) (firstn (k + 1) l) -> Sorted (before r) (skipn k l) -> Sorted (before r) l.
Proof.
  revert l; induction k as [|k IH]; intros l H1 H2; simpl in *; auto.
  destruct l as [|a l]; simpl in *; auto.
  destruct l as [|b l]; [repeat constructor|].
  replace (k + 1) with (Datatypes.S k) in * by lia. simpl in H1.
  inversion_clear H1 as [|? ? H3 H4]. constructor; [|inversion_clear H4; constructor; auto].
  apply IH; auto.
Qed.

Lemma SS_of_Sorted r (l : list T) : Sorted (before r) l -> StronglySorted (before r) l.
Proof. apply Sorted_StronglySorted. intros a b c; apply before_trans. Qed.

Lemma generate_paths_sorted cb K rv tt steps view fuel (st : st_t) (tr : list event) st' :
  begin_fills cb -> 2 <= K -> StronglySorted (before rv) steps ->
  generate_paths cb K rv tt steps view fuel st = (tr, Ok st') ->
  StronglySorted (before rv) (visited rv tr).
Proof.
  intros BF HK SP H. apply (generate_paths_ok _ _ _ _ _ _ _ _ _ _ BF) in H.
  destruct H as (_ & _ & _ & _ & F & _ & SO & _).
  apply SS_of_Sorted, (Sorted_glue _ _ (K - 2)); auto.
  replace (K - 2 + 1) with (K - 1) by lia. rewrite F.
  apply StronglySorted_Sorted, SS_firstn; auto.
Qed.

(** the initial state is the first thing stored *)
Lemma generate_paths_first cb K rv t0 tt s steps view fuel (st : st_t) (tr : list event) st' :
  begin_fills cb -> 2 <= K -> teqb s t0 = true ->
  generate_paths cb K rv (t0 :: tt) (s :: steps) view fuel st = (tr, Ok st') ->
  exists sw x0 xw y rest,
    tr = EvBegin rv (s :: sw) (x0 :: xw) :: EvStore rv (view 0) s x0 y :: rest.
Proof.
  intros BF HK E0 H. unfold M_paths.generate_paths in H.
  apply wbind_ok in H. destruct H as (trz & [l todo] & tr1 & E & H & ->).
  apply wlift_ok in E. destruct E as [E ->].
  destruct K as [|[|k]]; try lia. simpl in E.
  destruct (take_steps k steps) as [[sw rest]|] eqn:Q; [|discriminate].
  simpl in E. injection E as <- <-.
  apply wbind_ok in H. destruct H as (trb & [s1 l1] & trc & E1 & H & ->).
  apply wlift_ok in E1. destruct E1 as [E1 ->].
  assert (BL := BF _ _ _ _ _ E1). destruct l1 as [|x0 xw]; [discriminate|].
  apply wbind_ok in H. destruct H as (tr0 & [st1 n] & trd & E2 & H & ->).
  simpl in E2. apply wbind_ok in E2. destruct E2 as (tra & [st3 m] & trh & E5 & E6 & ->).
  apply sir_ok in E5. destruct E5 as (_ & _ & _ & ti & Hti & _ & C).
  simpl in Hti. injection Hti as <-.
  destruct C as [(-> & Et & s' & y & CS & _ & -> & ->)|(_ & F & _)].
  - exists sw, x0, xw, y, (trh ++ trd). reflexivity.
  - apply teq_sym in E0. congruence.
Qed.

(** bad steps end the run *)
Definition ev_good (e : event) : Prop :=
  match e with
  | EvNext r sw _ target s' _ => ~ bad_step r (last sw target) target s'
  | _ => True
  end.
Definition trace_ok {A} (m : list event * res A) : Prop :=
  match snd m with
  | Ok _ => Forall ev_good (fst m)
  | Err e => Forall ev_good (fst m) \/
             (e = RuntimeError /\ exists tr0 ev, fst m = tr0 ++ [ev] /\ Forall ev_good tr0 /\ ~ ev_good ev)
  end.

Lemma trace_ok_bind {A B} (m : @W T X Y A) (k : A -> @W T X Y B) :
  trace_ok m -> (forall a, trace_ok (k a)) -> trace_ok (wbind m k).
Proof.
  unfold trace_ok. destruct m as [tr [a|e]]; simpl; intros H1 H2.
  - specialize (H2 a). destruct (k a) as [tr2 [b|e]]; simpl in *.
    + apply Forall_app; auto.
    + destruct H2 as [H2|(-> & tr0 & ev & -> & H3 & H4)].
      * left. apply Forall_app; auto.
      * right; split; auto. exists (tr ++ tr0), ev. rewrite app_assoc. repeat split; auto.
        apply Forall_app; auto.
  - auto.
Qed.
Lemma trace_ok_ret {A} (a : A) : trace_ok (@wret T X Y A a).
Proof. constructor. Qed.
Lemma trace_ok_raise {A} e : trace_ok (@wraise T X Y A e).
Proof. left; constructor. Qed.
Lemma trace_ok_lift {A} (ev : A -> list event) m :
  (forall a, Forall ev_good (ev a)) -> trace_ok (wlift ev m).
Proof. intro H; destruct m; simpl; [apply H | left; constructor]. Qed.

Lemma trace_ok_sir cb rv tt steps view (st : st_t) i s x :
  trace_ok (@store_if_reached T TO S X Y cb rv tt steps view st i s x).
Proof.
  unfold store_if_reached. destruct (nth_error tt i); [|apply trace_ok_raise].
  destruct (if rv then _ else _); [apply trace_ok_raise|].
  destruct (teqb t s); [|apply trace_ok_ret].
  apply trace_ok_bind; [apply trace_ok_lift; intros [? ?]; repeat constructor|].
  intros [? ?]; apply trace_ok_ret.
Qed.

Lemma trace_ok_loop cb rv tt steps view fuel : forall (st : st_t) i cur tgt todo sw xw,
  trace_ok (@main_loop T TO S X Y cb rv tt steps view fuel st i cur tgt todo sw xw).
Proof.
  induction fuel as [|fuel IH]; intros; simpl.
  - destruct (i <? length tt); [apply trace_ok_raise | apply trace_ok_ret].
  - destruct (i <? length tt); [|apply trace_ok_ret].
    apply trace_ok_bind.
    { destruct (teqb cur tgt); [destruct todo|]; try apply trace_ok_ret; apply trace_ok_raise. }
    intros [target todo'].
    destruct (cb_next cb (iv rv tt steps i) (st_s st) sw target xw) as [[[s' s1] x1]|e]; simpl.
    2: { left; constructor. }
    destruct (order_ok rv (last sw target) s1 target) eqn:O.
    + assert (G : ev_good (EvNext rv sw xw target s1 x1)).
      { simpl. unfold bad_step. rewrite <- order_ok_spec. intro H; apply H; auto. }
      match goal with |- trace_ok (let '(a, b) := ?m in _) =>
        assert (Q : trace_ok m); [|destruct m as [tr2 [r|e]]] end.
      { apply trace_ok_bind; [apply trace_ok_sir|]. intros [st2 di]. apply IH. }
      * unfold trace_ok in *; simpl in *. constructor; auto.
      * unfold trace_ok in *; simpl in *. destruct Q as [Q|(-> & tr0 & ev & -> & Q1 & Q2)].
        -- left; constructor; auto.
        -- right; split; auto. exists (EvNext rv sw xw target s1 x1 :: tr0), ev. repeat split; auto.
    + right. split; auto. exists [], (EvNext rv sw xw target s1 x1). simpl. repeat split; auto.
      intro H. apply H. unfold bad_step. rewrite <- order_ok_spec. congruence.
Qed.

Lemma trace_ok_initial cb rv tt steps view : forall sw xw (st : st_t) i,
  trace_ok (@store_initial T TO S X Y cb rv tt steps view st i sw xw).
Proof.
  induction sw as [|s sw IH]; intros [|x xw] st i; simpl; try apply trace_ok_ret.
  apply trace_ok_bind; [apply trace_ok_sir|]. intros [? ?]; apply IH.
Qed.

Lemma trace_ok_gen cb K rv tt steps view fuel (st : st_t) :
  trace_ok (@generate_paths T TO S X Y cb K rv tt steps view fuel st).
Proof.
  unfold generate_paths.
  apply trace_ok_bind; [apply trace_ok_lift; constructor|]. intros [sw todo].
  apply trace_ok_bind; [apply trace_ok_lift; intros [? ?]; repeat constructor|]. intros [s' xw].
  destruct sw as [|s0 sw]; [apply trace_ok_raise|].
  apply trace_ok_bind; [apply trace_ok_initial|]. intros [st1 i].
  apply trace_ok_bind; [apply trace_ok_loop|]. intros st2.
  apply trace_ok_bind; [apply trace_ok_lift; repeat constructor|]. intros s2. apply trace_ok_ret.
Qed.

Lemma trace_ok_call cb K i0 gi pace_fn fuel s_init shape data :
  trace_ok (@call T TO S X Y cb K i0 gi pace_fn fuel s_init shape data).
Proof.
  unfold call. destruct (K <? 2); [apply trace_ok_raise|].
  destruct (negb (match shape with [m] => m =? length data | _ => false end)); [apply trace_ok_raise|].
  destruct (negb (array_equal data (unique data))); [apply trace_ok_raise|].
  destruct (norm_index (length data) i0); [|apply trace_ok_raise].
  destruct data as [|tmin tt]; [apply trace_ok_raise|].
  cbv zeta.
  destruct (length (merge_steps (tmin :: tt) (pace_fn (tmin :: tt))) <? K - 1); [apply trace_ok_raise|].
  destruct (where_eq _ _ 0) as [|j0 [|]]; try apply trace_ok_raise.
  apply trace_ok_bind.
  - destruct (negb (i0 =? 0)%Z); [apply trace_ok_gen | apply trace_ok_ret].
  - intro st1.
    destruct ((i0 =? 0) || negb ((i0 =? -1) || (i0 =? Z.of_nat (length (tmin :: tt)) - 1)))%Z;
      [apply trace_ok_gen | apply trace_ok_ret].
Qed.
End L.
