(** Lemmas about the simulation engine: what is stored, errors of a pass,
    value recursion, splitting of the merged grid. *)
From Coq Require Import List ZArith Bool Lia Sorting.Sorted.
From Verif Require Import Base BaseOrd M_paths S_paths L_ord L_paths L_paths2.
Import ListNotations.

Section L.
Context {T : Type} {TO : TOrd T} {TL : TOrdLaws T} {S X Y : Type}.
Notation event := (event T X Y).
Notation st_t := (st_t T S Y).

Lemma states_app r (a b : list event) : states r (a ++ b) = states r a ++ states r b.
Proof. apply flat_map_app. Qed.

Section Pass.
Variable cb : callbacks T S X Y.
Variable K : nat.
Variable rv : bool.
Variable tt steps : list T.
Variable view : nat -> nat.

Notation store_if_reached := (store_if_reached cb rv tt steps view).
Notation main_loop := (main_loop cb rv tt steps view).
Notation store_initial := (store_initial cb rv tt steps view).
Notation generate_paths := (generate_paths cb K rv tt steps view).

(** a value is what [store] makes of a working state *)
Definition stored_from (l : list (T * X)) (w : nat * T * X * Y) : Prop :=
  In (st_time w, st_x w) l /\
  exists iv s s' i, cb_store cb iv s i (st_time w) (st_x w) = Ok (s', st_val w).

Lemma stored_from_incl l l' w : incl l l' -> stored_from l w -> stored_from l' w.
Proof. intros H [H1 H2]; split; auto. Qed.

Lemma main_loop_stored fuel : forall st i cur tgt todo sw xw tr st',
  main_loop fuel st i cur tgt todo sw xw = (tr, Ok st') ->
  Forall (stored_from (states rv tr)) (stores rv tr).
Proof.
  induction fuel as [|fuel IH]; intros st i cur tgt todo sw xw tr st' H.
  - simpl in H. destruct (i <? length tt); winv. constructor.
  - simpl in H. destruct (i <? length tt); [|winv; constructor].
    apply wbind_ok in H. destruct H as (tr0 & [t todo'] & trA & E0 & H & ->).
    apply wbind_ok in H. destruct H as (tr2 & [[snew t0] x] & trB & E1 & H & ->).
    apply wlift_ok in E1. destruct E1 as [E1 ->].
    destruct (order_ok rv (last sw t) t0 t) eqn:O; [|discriminate].
    apply wbind_ok in H. destruct H as (tr1 & [st1 n] & tr4 & E & E3 & ->).
    apply sir_ok in E. destruct E as (P1 & V1 & N1 & ti & Hti & NB & C).
    assert (tr0 = []) as ->.
    { destruct (teqb cur tgt); [destruct todo|]; winv; auto. }
    apply IH in E3.
    change ([] ++ [EvNext rv sw xw t t0 x] ++ tr1 ++ tr4)
      with ([EvNext rv sw xw t t0 x] ++ tr1 ++ tr4).
    rewrite !stores_app, !states_app. simpl. rewrite eqb_reflx.
    apply Forall_app; split.
    + destruct C as [(-> & Et & s' & y & CS & -> & _)|(-> & _ & -> & _)]; [|constructor].
      constructor; [|constructor]. split; [left; auto|].
      do 4 eexists; exact CS.
    + eapply Forall_impl; [|exact E3]. intros w. apply stored_from_incl.
      apply incl_appr, incl_appr, incl_refl.
Qed.

Lemma store_initial_stored : forall sw xw st i tr st' i',
  store_initial st i sw xw = (tr, Ok (st', i')) ->
  Forall (stored_from (combine sw xw)) (stores rv tr) /\ states rv tr = [].
Proof.
  induction sw as [|s sw IH]; intros xw st i tr st' i' H.
  - simpl in H. winv. split; [constructor|auto].
  - destruct xw as [|x xw]; simpl in H; [winv; split; [constructor|auto]|].
    apply wbind_ok in H. destruct H as (tr1 & [st1 n] & tr2 & E & E0 & ->).
    apply sir_ok in E. destruct E as (_ & _ & _ & ti & _ & _ & C).
    apply IH in E0. destruct E0 as [E0 E00]. rewrite stores_app, states_app, E00, app_nil_r.
    assert (QQ : Forall (stored_from (combine (s :: sw) (x :: xw))) (stores rv tr2)).
    { eapply Forall_impl; [|exact E0]. intros w; apply stored_from_incl. apply incl_tl, incl_refl. }
    destruct C as [(-> & Et & s' & y & CS & -> & -> & _)|(-> & _ & -> & _)].
    + split; [|simpl; rewrite eqb_reflx; auto].
      constructor; auto. split; [left; auto|]. do 4 eexists; exact CS.
    + split; auto.
Qed.

Theorem generate_paths_stored fuel st tr st' :
  generate_paths fuel st = (tr, Ok st') ->
  Forall (stored_from (states rv tr)) (stores rv tr).
Proof.
  intro H. unfold M_paths.generate_paths in H.
  apply wbind_ok in H. destruct H as (trz & [l todo] & tr1 & E & H & ->).
  apply wlift_ok in E. destruct E as [E ->].
  apply wbind_ok in H. destruct H as (trb & [s1 l1] & trc & E1 & H & ->).
  apply wlift_ok in E1. destruct E1 as [E1 ->].
  destruct l as [|s0 sw]; [discriminate|].
  apply wbind_ok in H. destruct H as (tr0 & [st1 n] & trd & E2 & H & ->).
  apply wbind_ok in H. destruct H as (tr2 & st2 & tre & E3 & H & ->).
  apply wbind_ok in H. destruct H as (trf & s2 & trg & E4 & H & ->).
  apply wlift_ok in E4. destruct E4 as [E4 ->]. unfold wret in H. injection H as <- <-.
  apply store_initial_stored in E2. destruct E2 as [E2 E2'].
  apply main_loop_stored in E3.
  simpl. rewrite eqb_reflx, !stores_app, !states_app, E2'. simpl.
  rewrite eqb_reflx. simpl. rewrite !app_nil_r. apply Forall_app; split.
  - eapply Forall_impl; [|exact E2]. intros w; apply stored_from_incl.
    apply incl_appl, incl_refl.
  - eapply Forall_impl; [|exact E3]. intros w; apply stored_from_incl.
    apply incl_appr, incl_refl.
Qed.

(** Errors of a pass. *)
Theorem generate_paths_err fuel st tr e :
  total_cb cb -> good_pass rv tt steps -> 2 <= K -> K - 1 <= length steps ->
  generate_paths fuel st = (tr, Err e) ->
  e = OutOfFuel \/
  (e = RuntimeError /\ exists tr0 sw0 xw0 target s' x',
     tr = tr0 ++ [EvNext rv sw0 xw0 target s' x'] /\ bad_step rv (last sw0 target) target s').
Proof.
  intros TC GP HK HL.
  destruct (good_pass_init cb K rv tt steps view TC GP HK HL st)
    as (trx & s' & xw & s0 & sw' & tr1 & st1 & i & E1 & EF & E2 & E3 & Hi & LI & EI & PO & _).
  unfold M_paths.generate_paths. rewrite E1. cbn [wlift wbind]. rewrite E2. cbn [wlift wbind].
  rewrite E3. cbn [wbind].
  destruct (main_loop fuel st1 i (last (s0 :: sw') s0) (last (s0 :: sw') s0)
              (skipn (K - 1) steps) (s0 :: sw') xw) as [tr2 [st2|e2]] eqn:E4; cbn [wbind].
  - destruct TC as (_ & _ & _ & TE).
    destruct (TE (iv rv tt steps (length tt)) (st_s st2)) as (s3 & E5).
    rewrite E5. simpl. discriminate.
  - intro H. injection H as <- ->.
    eapply main_loop_err in E4; eauto; [|discriminate|apply last_any; discriminate].
    destruct E4 as [->|(-> & tr0 & sw0 & xw0 & t0 & s1 & x1 & -> & B)]; auto.
    right; split; auto.
    exists (EvBegin rv (s0 :: sw') xw :: tr1 ++ tr0), sw0, xw0, t0, s1, x1. split; [|exact B].
    simpl. rewrite app_assoc. reflexivity.
Qed.

Theorem generate_paths_short fuel st :
  length steps < K - 1 -> generate_paths fuel st = ([], Err StopIteration).
Proof. intro H. unfold M_paths.generate_paths. rewrite take_steps_fail by auto. reflexivity. Qed.

Variable f : S -> T -> T -> X -> S * X.
Variable out : X -> Y.
Hypothesis SC : simple_cb cb f out.

Lemma sir_state st i s x tr st' di :
  store_if_reached st i s x = (tr, Ok (st', di)) -> st_s st' = st_s st /\ states rv tr = [].
Proof.
  intro H. apply sir_ok in H. destruct H as (_ & _ & _ & ti & _ & _ & C).
  destruct C as [(-> & Et & s' & y & CS & _ & -> & ->)|(_ & _ & -> & ->)]; auto.
  destruct SC as (_ & S2 & _). rewrite S2 in CS. injection CS as <- <-. simpl.
  rewrite eqb_reflx; auto.
Qed.

Lemma main_loop_values fuel : forall st i cur tgt todo x tr st',
  main_loop fuel st i cur tgt todo [cur] [x] = (tr, Ok st') ->
  exists grid, visited rv tr = grid /\
  st_s st' = fst (recursion f (st_s st) cur x grid) /\
  (cur, x) :: states rv tr = snd (recursion f (st_s st) cur x grid).
Proof.
  destruct SC as (S1 & S2 & _).
  induction fuel as [|fuel IH]; intros st i cur tgt todo x tr st' H.
  - simpl in H. destruct (i <? length tt); winv. exists []; auto.
  - simpl in H. destruct (i <? length tt); [|winv; exists []; auto].
    apply wbind_ok in H. destruct H as (tr0 & [t todo'] & trA & E0 & H & ->).
    apply wbind_ok in H. destruct H as (tr2 & [[snew t0] x0] & trB & E1 & H & ->).
    apply wlift_ok in E1. destruct E1 as [E1 ->]. rewrite S1 in E1. injection E1 as <- <- <-.
    destruct (order_ok rv cur t t) eqn:O; [|discriminate].
    apply wbind_ok in H. destruct H as (tr1 & [st1 n] & tr4 & E & E3 & ->).
    assert (tr0 = []) as ->.
    { destruct (teqb cur tgt); [destruct todo|]; winv; auto. }
    assert (SS := sir_state _ _ _ _ _ _ _ E). destruct SS as [SS1 SS2].
    apply sir_ok in E. destruct E as (_ & V1 & _).
    apply IH in E3. destruct E3 as (grid & Vg & St & Sg).
    change ([] ++ [EvNext rv [cur] [x] t t (snd (f (st_s st) cur t x))] ++ tr1 ++ tr4)
      with ([EvNext rv [cur] [x] t t (snd (f (st_s st) cur t x))] ++ tr1 ++ tr4).
    rewrite !visited_app, !states_app, V1, SS2. simpl. rewrite eqb_reflx. simpl.
    exists (t :: grid). rewrite Vg. split; auto. simpl.
    simpl in St, Sg. rewrite SS1 in St, Sg. simpl in St, Sg.
    destruct (f (st_s st) cur t x) as [s1 x1] eqn:F. simpl in *.
    destruct (recursion f s1 t x1 grid) as [s2 l] eqn:R. simpl in *.
    split; auto. rewrite <- Sg; auto.
Qed.

Theorem generate_paths_values fuel st tr st' s0 x0 grid :
  K = 2 -> steps = s0 :: grid ->
  (forall iv s, cb_begin cb iv s [s0] = Ok (s, [x0])) ->
  generate_paths fuel st = (tr, Ok st') -> visited rv tr = steps ->
  st_s st' = fst (recursion f (st_s st) s0 x0 grid) /\
  states rv tr = snd (recursion f (st_s st) s0 x0 grid).
Proof.
  intros HK Hst HB H HV. unfold M_paths.generate_paths in H.
  apply wbind_ok in H. destruct H as (trz & [l todo] & tr1 & E & H & ->).
  apply wlift_ok in E. destruct E as [E ->].
  rewrite HK, Hst in E. cbn in E. injection E as <- <-.
  apply wbind_ok in H. destruct H as (trb & [s1 l1] & trc & E1 & H & ->).
  apply wlift_ok in E1. destruct E1 as [E1 ->]. rewrite HB in E1. injection E1 as <- <-.
  apply wbind_ok in H. destruct H as (tr0 & [st1 n] & trd & E2 & H & ->).
  apply wbind_ok in H. destruct H as (tr2 & st2 & tre & E3 & H & ->).
  apply wbind_ok in H. destruct H as (trf & s2 & trg & E4 & H & ->).
  apply wlift_ok in E4. destruct E4 as [E4 ->]. unfold wret in H. injection H as <- <-.
  simpl in E3. apply main_loop_values in E3. destruct E3 as (g & Vg & St & Sg).
  apply wbind_ok in E2. destruct E2 as (tra & [st3 m] & trh & E5 & E6 & ->).
  simpl in E6. unfold wret in E6. injection E6 as <- <- <-.
  assert (SS := sir_state _ _ _ _ _ _ _ E5). destruct SS as [SS1 SS2]. simpl in SS1.
  apply sir_ok in E5. destruct E5 as (_ & V1 & _).
  destruct SC as (_ & _ & S3). rewrite S3 in E4. injection E4 as <-.
  simpl in *. rewrite eqb_reflx, !visited_app in HV. rewrite eqb_reflx.
  rewrite !states_app, SS2. simpl in *. rewrite eqb_reflx in *. rewrite V1 in HV. simpl in HV.
  rewrite !app_nil_r in *. rewrite Vg, Hst in HV. injection HV as ->.
  rewrite SS1 in *. split; auto.
Qed.
End Pass.

(** *** The merged grid *)
Lemma last_cons_any {A} (a : A) l d e : last (a :: l) d = last (a :: l) e.
Proof. apply last_any; discriminate. Qed.

Lemma In_last {A} (l : list A) d : l <> [] -> In (last l d) l.
Proof.
  intro H. rewrite (app_removelast_last d H) at 2. apply in_or_app; right; left; auto.
Qed.

Lemma tleb_iff (a b : T) : tleb a b = true <-> before false a b \/ teqb a b = true.
Proof. unfold tleb; simpl; rewrite orb_true_iff; tauto. Qed.

Lemma tleb_num (a b : T) : tleb a b = true -> isnum a /\ isnum b.
Proof.
  rewrite tleb_iff; intros [H|H]; [apply before_num in H; auto|].
  split; [eapply teq_num_l | eapply teq_num_r]; eauto.
Qed.

Section Merge.
Variable tt pc : list T.
Variable a : T.
Hypothesis NT : Forall isnum (a :: tt).
Hypothesis ST : StronglySorted (before false) (a :: tt).

Let timeline := a :: tt.
Let g := merge_steps timeline pc.

Lemma merge_num : Forall isnum (filter (fun t => tleb a t && tleb t (last timeline a)) pc ++ timeline).
Proof.
  apply Forall_app; split; auto. apply Forall_forall. intros t Ht.
  apply filter_In in Ht. destruct Ht as [_ Ht]. apply andb_true_iff in Ht.
  destruct Ht as [Ht _]. apply tleb_num in Ht; tauto.
Qed.

Lemma merge_grid_num : Forall isnum g.
Proof. apply unique_num, merge_num. Qed.
Lemma merge_sorted : StronglySorted (before false) g.
Proof. apply unique_sorted, merge_num. Qed.

Lemma timeline_le_last t : In t timeline -> tleb t (last timeline a) = true.
Proof.
  intro Ht. apply tleb_iff.
  assert (N : timeline <> []) by discriminate.
  assert (E := app_removelast_last a N). rewrite E in Ht.
  apply in_app_or in Ht. destruct Ht as [Ht|[Ht|[]]].
  - left. unfold timeline in *. rewrite E in ST. apply SS_app in ST.
    destruct ST as (_ & _ & H). apply H; auto. left; auto.
  - right. rewrite <- Ht. unfold timeline in *. rewrite Forall_forall in NT.
    apply NT. apply In_last; auto.
Qed.
Lemma timeline_ge_first t : In t timeline -> tleb a t = true.
Proof.
  intros [->|Ht]; apply tleb_iff.
  - right. inversion NT; auto.
  - left. inversion_clear ST as [|? ? _ F]. rewrite Forall_forall in F; auto.
Qed.

Lemma tleb_eq_r (x y z : T) : teqb x y = true -> tleb z x = tleb z y.
Proof.
  intro E. apply eq_iff_eq_true. rewrite !tleb_iff, (before_eq_r false x y z E).
  split; intros [H|H]; auto; right; eapply teq_trans; eauto. apply teq_sym; auto.
Qed.
Lemma tleb_eq_l (x y z : T) : teqb x y = true -> tleb x z = tleb y z.
Proof.
  intro E. apply eq_iff_eq_true. rewrite !tleb_iff, (before_eq_l false x y z E).
  split; intros [H|H]; auto; right; [eapply teq_trans; [apply teq_sym|]; eauto | eapply teq_trans; eauto].
Qed.
Lemma tleb_trans (x y z : T) : tleb x y = true -> tleb y z = true -> tleb x z = true.
Proof.
  rewrite !tleb_iff. intros [H1|H1] [H2|H2].
  - left; eapply before_trans; eauto.
  - left; apply (before_eq_r false y z x H2); auto.
  - left; apply (before_eq_l false x y z H1); auto.
  - right; eapply teq_trans; eauto.
Qed.

Lemma merge_InT t : InT t g <->
  InT t timeline \/
  (InT t pc /\ exists u v, InT u timeline /\ InT v timeline /\ tleb u t = true /\ tleb t v = true).
Proof.
  unfold g, merge_steps, timeline. rewrite unique_InT by apply merge_num.
  rewrite InT_app. fold timeline. split.
  - intros [H|H]; auto. right. destruct H as [s [Hs E]].
    apply filter_In in Hs. destruct Hs as [Hs C]. apply andb_true_iff in C. destruct C as [C1 C2].
    split; [exists s; auto|].
    unfold timeline in *. rewrite Forall_forall in NT.
    exists a, (last timeline a). repeat split.
    + apply InT_In; [apply NT|]; left; auto.
    + apply InT_In; [apply NT|]; apply In_last; discriminate.
    + rewrite (tleb_eq_r t s a E); auto.
    + rewrite (tleb_eq_l t s _ E); auto.
  - intros [H|[[s [Hs E]] (u & v & [u' [Hu Eu]] & [v' [Hv Ev]] & L1 & L2)]]; auto.
    left. exists s; split; auto. apply filter_In; split; auto. apply andb_true_iff; split.
    + rewrite <- (tleb_eq_r t s _ E). eapply tleb_trans; [|exact L1].
      rewrite (tleb_eq_r u u' _ Eu). apply timeline_ge_first; auto.
    + rewrite <- (tleb_eq_l t s _ E). eapply tleb_trans; [exact L2|].
      rewrite (tleb_eq_l v v' _ Ev). apply timeline_le_last; auto.
Qed.

Lemma merge_range t : In t g -> tleb a t = true /\ tleb t (last timeline a) = true.
Proof.
  intro H. apply unique_In in H. apply in_app_or in H. destruct H as [H|H].
  - apply filter_In in H. destruct H as [_ H]. apply andb_true_iff in H; auto.
  - split; [apply timeline_ge_first | apply timeline_le_last]; auto.
Qed.

Lemma merge_nonempty : g <> [].
Proof.
  intro E. assert (H : InT a g).
  { apply merge_InT. left. apply InT_In; [inversion NT; auto | left; auto]. }
  rewrite E in H. eapply InT_nil; eauto.
Qed.

(** the ends of the grid are ends of the timeline *)
Lemma merge_last d : InT (last g d) timeline.
Proof.
  assert (HN := merge_nonempty).
  assert (HI := In_last g d HN).
  assert (HT := last timeline a).
  assert (LT : InT (last timeline a) g).
  { apply merge_InT. left. unfold timeline in *. rewrite Forall_forall in NT.
    apply InT_In; [apply NT|]; apply In_last; discriminate. }
  destruct (merge_range _ HI) as [_ R]. apply tleb_iff in R. destruct R as [R|R].
  - exfalso. destruct LT as [s [Hs E]].
    assert (SP := merge_sorted). rewrite (app_removelast_last d HN) in SP, Hs.
    apply SS_app in SP. destruct SP as (_ & _ & SP).
    apply in_app_or in Hs. destruct Hs as [Hs|[Hs|[]]].
    + assert (B : before false s (last g d)) by (apply SP; [auto|left; auto]).
      apply (before_irrefl false s (last timeline a)); [apply teq_sym; auto|].
      eapply before_trans; eauto.
    + subst s. apply (before_irrefl false (last g d) (last timeline a)); auto. apply teq_sym; auto.
  - exists (last timeline a). split; auto. apply In_last; discriminate.
Qed.
Lemma merge_hd : exists h r, g = h :: r /\ InT h timeline.
Proof.
  assert (HN := merge_nonempty).
  destruct g as [|h r] eqn:G; [congruence|]. exists h, r; split; auto.
  assert (HI : In h g) by (rewrite G; left; auto).
  destruct (merge_range _ HI) as [R _]. apply tleb_iff in R. destruct R as [R|R].
  - exfalso. assert (LT : InT a g).
    { apply merge_InT. left. apply InT_In; [inversion NT; auto | left; auto]. }
    rewrite G in LT. assert (SP := merge_sorted). rewrite G in SP.
    apply InT_cons in LT. destruct LT as [E|[s [Hs E]]].
    + apply (before_irrefl false a h); auto.
    + inversion_clear SP as [|? ? _ F]. rewrite Forall_forall in F. specialize (F s Hs).
      apply (before_irrefl false a s); auto. eapply before_trans; eauto.
  - exists a. split; [left; auto | apply teq_sym; auto].
Qed.
End Merge.

(** position of a point in a sorted grid *)
Lemma where_eq_sorted (l : list T) t : forall j,
  StronglySorted (before false) l -> InT t l ->
  exists l1 s l2, l = l1 ++ s :: l2 /\ teqb s t = true /\ where_eq l t j = [j + length l1].
Proof.
  assert (NO : forall l, ~ InT t l -> forall j, where_eq l t j = []).
  { clear l. induction l as [|s l IH]; intros H j; simpl; auto.
    rewrite InT_cons in H. destruct (teqb s t) eqn:E.
    - exfalso. apply H. left. apply teq_sym; auto.
    - apply IH; auto. }
  induction l as [|s l IH]; intros j SP H; [destruct (InT_nil _ H)|].
  simpl. destruct (teqb s t) eqn:E.
  - exists [], s, l. repeat split; auto. rewrite NO, Nat.add_0_r; auto.
    intros [u [Hu Eu]]. apply (SS_head_notin false s l); auto.
    exists u; split; auto. eapply teq_trans; eauto.
  - apply InT_cons in H. destruct H as [H|H]; [apply teq_sym in H; congruence|].
    inversion_clear SP as [|? ? SP' _].
    destruct (IH (Datatypes.S j) SP' H) as (l1 & u & l2 & -> & Eu & W).
    exists (s :: l1), u, l2. repeat split; auto. rewrite W. simpl. f_equal. lia.
Qed.

(** one pass out of a split timeline and grid *)
Lemma good_split rv (l1 l2 t1 t2 : list T) (s t0 : T) :
  StronglySorted (before rv) (l1 ++ s :: l2) -> Forall isnum (l1 ++ s :: l2) ->
  StronglySorted (before rv) (t1 ++ t0 :: t2) -> Forall isnum (t1 ++ t0 :: t2) ->
  teqb s t0 = true ->
  (forall t, In t (t1 ++ t0 :: t2) -> InT t (l1 ++ s :: l2)) ->
  (forall d, InT (last (l1 ++ s :: l2) d) (t1 ++ t0 :: t2)) ->
  good_pass rv (t0 :: t2) (s :: l2) /\
  (forall t, InT t (s :: l2) <-> InT t (l1 ++ s :: l2) /\ (teqb t0 t = true \/ before rv t0 t)).
Proof.
  intros SP NP ST NT E HI HL.
  assert (SP' := SP). apply SS_app in SP'. destruct SP' as (SP1 & SP2 & SP3).
  assert (ST' := ST). apply SS_app in ST'. destruct ST' as (ST1 & ST2 & ST3).
  apply Forall_app in NP. destruct NP as [NP1 NP2].
  apply Forall_app in NT. destruct NT as [NT1 NT2].
  assert (GE : forall t, InT t (t0 :: t2) -> teqb t0 t = true \/ before rv t0 t).
  { intros t H. apply InT_cons in H. destruct H as [H|[u [Hu Eu]]]; [left; apply teq_sym; auto|].
    right. inversion_clear ST2 as [|? ? _ F]. rewrite Forall_forall in F.
    apply (before_eq_r rv t u t0 Eu); auto. }
  assert (GE2 : forall t, InT t (s :: l2) -> teqb t0 t = true \/ before rv t0 t).
  { intros t H. apply InT_cons in H. destruct H as [H|[u [Hu Eu]]].
    - left. apply teq_sym. eapply teq_trans; eauto.
    - right. inversion_clear SP2 as [|? ? _ F]. rewrite Forall_forall in F.
      apply (before_eq_r rv t u t0 Eu). apply (before_eq_l rv s t0 u E). auto. }
  assert (LT : forall t, InT t l1 -> before rv t t0).
  { intros t [u [Hu Eu]]. apply (before_eq_l rv t u t0 Eu).
    apply (before_eq_r rv s t0 u E). apply SP3; auto. left; auto. }
  assert (LT2 : forall t, InT t t1 -> before rv t t0).
  { intros t [u [Hu Eu]]. apply (before_eq_l rv t u t0 Eu). apply ST3; auto. left; auto. }
  assert (EXCL : forall t, before rv t t0 -> teqb t0 t = true \/ before rv t0 t -> False).
  { intros t H [H1|H1].
    - apply (before_irrefl rv t t0); auto. apply teq_sym; auto.
    - eapply before_asym; eauto. }
  split.
  - repeat split; auto.
    + intros t Ht. assert (H := HI t (in_or_app _ _ _ (or_intror Ht))).
      apply InT_app in H. destruct H as [H|H]; auto. exfalso.
      apply (EXCL t); auto. apply GE. apply InT_In; auto.
      rewrite Forall_forall in NT2; auto.
    + intros d _. specialize (HL d). 
      assert (EL : last (l1 ++ s :: l2) d = last (s :: l2) d).
      { clear. induction l1 as [|a l IH]; auto. rewrite <- IH. simpl.
        destruct (l ++ s :: l2) eqn:Q; auto. destruct l; discriminate. }
      rewrite EL in HL. apply InT_app in HL. destruct HL as [H|H]; auto. exfalso.
      apply (EXCL (last (s :: l2) d)); auto. apply GE2.
      apply InT_In; [|apply In_last; discriminate].
      rewrite Forall_forall in NP2. apply NP2, In_last; discriminate.
  - intro t. split.
    + intro H. split; auto. apply InT_app; auto.
    + intros [H1 H2]. apply InT_app in H1. destruct H1 as [H1|H1]; auto. exfalso. eauto.
Qed.
End L.
