(** Lemmas about the simulation engine: absence of errors, termination, grid. *)
From Coq Require Import List ZArith Bool Lia Sorting.Sorted.
From Verif Require Import Base BaseOrd M_paths S_paths L_ord L_paths.
Import ListNotations.

Section L.
Context {T : Type} {TO : TOrd T} {TL : TOrdLaws T} {S X Y : Type}.
Notation event := (event T X Y).
Notation st_t := (st_t T S Y).

Section Pass.
Variable cb : callbacks T S X Y.
Variable K : nat.
Variable rv : bool.
Variable tt steps : list T.
Variable view : nat -> nat.

Notation store_if_reached := (store_if_reached cb rv tt steps view).
Notation main_loop := (main_loop cb rv tt steps view).
Notation store_initial := (store_initial cb rv tt steps view).
Notation generate_paths := (generate_paths cb K rv tt steps view).

(** the remaining output points are all ahead, on the remaining path *)
Definition linv (i : nat) (cur : T) (path : list T) : Prop :=
  StronglySorted (before rv) (cur :: path) /\
  isnum cur /\ Forall isnum path /\
  (forall t, In t (skipn i tt) -> isnum t /\ InT t path) /\
  StronglySorted (before rv) (skipn i tt).

Definition endinv (i : nat) (path : list T) : Prop :=
  forall d, path <> [] -> InT (last path d) (skipn i tt).

Lemma skipn_cons i ti : nth_error tt i = Some ti -> skipn i tt = ti :: skipn (i + 1) tt.
Proof.
  rewrite Nat.add_1_r. clear.
  revert i; induction tt as [|z l IH]; destruct i; simpl; intros; try discriminate.
  - inversion H; auto.
  - apply IH; auto.
Qed.

Lemma order_ok_spec s s1 t : order_ok rv s s1 t = true <->
  before rv s s1 /\ (before rv s1 t \/ teqb s1 t = true).
Proof using TL.
  clear - TL.
  unfold order_ok, tleb, before; destruct rv; rewrite andb_true_iff, orb_true_iff;
    [|tauto].
  split; intros [H1 [H2|H2]]; split; auto; right; apply teq_sym; auto.
Qed.

Lemma linv_step i cur target rest s1 ti :
  linv i cur (target :: rest) ->
  nth_error tt i = Some ti ->
  before rv cur s1 -> before rv s1 target \/ teqb s1 target = true ->
  ~ before rv ti s1 /\
  let path' := if teqb s1 target then rest else target :: rest in
  (teqb ti s1 = true -> teqb s1 target = true /\ linv (i + 1) s1 path') /\
  (teqb ti s1 = false -> linv i s1 path').
Proof.
  intros (SP & Nc & Np & HI & ST) Hti B1 B2.
  assert (E := skipn_cons _ _ Hti).
  inversion SP as [|? ? SP1 SP2]; subst.
  inversion_clear SP1 as [|? ? SP3 SP4].
  inversion_clear Np as [|? ? Nt Nr].
  destruct (before_num _ _ _ B1) as [_ N1].
  rewrite E in HI.
  destruct (HI ti (or_introl eq_refl)) as [Nti Iti].
  (* target <= ti *)
  assert (TI : teqb target ti = true \/ before rv target ti).
  { apply InT_cons in Iti. destruct Iti as [H|[s [Hs Es]]].
    - left; apply teq_sym; auto.
    - right. rewrite Forall_forall in SP4.
      apply (before_eq_r rv ti s target Es). auto. }
  assert (S1TI : teqb s1 ti = true \/ before rv s1 ti).
  { destruct B2 as [B2|B2], TI as [TI|TI].
    - right; apply (before_eq_r rv target ti s1 TI); auto.
    - right; eapply before_trans; eauto.
    - left; exact (teq_trans _ _ _ B2 TI).
    - right; apply (before_eq_l rv s1 target ti B2); auto. }
  split.
  { intro H. destruct S1TI as [H1|H1].
    - apply (before_irrefl rv ti s1); auto. apply teq_sym; auto.
    - eapply before_asym; eauto. }
  (* s1 before rest *)
  assert (S1R : Forall (before rv s1) rest).
  { rewrite Forall_forall in *. intros z Hz. specialize (SP4 z Hz).
    destruct B2 as [B2|B2].
    - eapply before_trans; eauto.
    - apply (before_eq_l rv s1 target z B2); auto. }
  assert (SSp : StronglySorted (before rv) (s1 :: (if teqb s1 target then rest else target :: rest))).
  { destruct (teqb s1 target) eqn:Q.
    - constructor; auto.
    - destruct B2 as [B2|B2]; [|congruence].
      constructor; [constructor; auto | constructor; auto]. }
  assert (Fp : Forall isnum (if teqb s1 target then rest else target :: rest)).
  { destruct (teqb s1 target); auto. }
  rewrite E in ST. inversion ST as [|? ? ST1 ST2]; subst.
  (* later output points are in rest *)
  assert (Later : forall t, In t (skipn (i + 1) tt) -> isnum t /\ InT t rest).
  { intros t Ht. destruct (HI t (or_intror Ht)) as [Nt' It]. split; auto.
    apply InT_cons in It. destruct It as [H|H]; auto. exfalso.
    rewrite Forall_forall in ST2. specialize (ST2 t Ht).
    (* target <= ti < t = target *)
    assert (before rv target t).
    { destruct TI as [TI|TI].
      - apply (before_eq_l rv target ti t TI); auto.
      - eapply before_trans; eauto. }
    apply (before_irrefl rv target t); auto. apply teq_sym; auto. }
  split.
  - intro Q.
    assert (Q2 : teqb s1 target = true).
    { destruct B2 as [B2|]; auto. exfalso.
      destruct TI as [TI|TI].
      - (* s1 < target = ti = s1 *)
        apply (before_irrefl rv s1 target); auto.
        apply teq_sym. eapply teq_trans; [exact TI | exact Q].
      - apply (before_irrefl rv s1 ti); [apply teq_sym; auto|].
        eapply before_trans; eauto. }
    split; auto. rewrite Q2 in *.
    repeat split; auto; apply Later; auto.
  - intro Q. repeat split; auto.
    + apply HI; rewrite E in H; auto.
    + rewrite E in H. destruct (teqb s1 target) eqn:Q2.
      * destruct H as [->|H]; [|apply Later; auto].
        destruct (HI t (or_introl eq_refl)) as [_ It].
        apply InT_cons in It. destruct It as [H|H]; auto. exfalso.
        assert (teqb t s1 = true) by (eapply teq_trans; [exact H | apply teq_sym; auto]).
        congruence.
      * apply HI; auto.
    + rewrite E; auto.
Qed.

Lemma endinv_step i target rest s1 ti :
  endinv i (target :: rest) -> nth_error tt i = Some ti ->
  StronglySorted (before rv) (target :: rest) ->
  StronglySorted (before rv) (skipn i tt) ->
  (forall t, In t (skipn i tt) -> InT t (target :: rest)) ->
  let path' := if teqb s1 target then rest else target :: rest in
  (teqb ti s1 = true -> teqb s1 target = true -> endinv (i + 1) path') /\
  (teqb ti s1 = false -> endinv i path').
Proof.
  intros EI Hti SP ST HI. simpl. assert (E := skipn_cons _ _ Hti). split.
  - intros Q1 Q2. rewrite Q2. intros d Hr.
    specialize (EI d ltac:(discriminate)).
    assert (last (target :: rest) d = last rest d) as EL by (destruct rest; [congruence|reflexivity]).
    rewrite EL in EI. rewrite E in EI. apply InT_cons in EI. destruct EI as [H|H]; auto. exfalso.
    (* last rest = ti = target *)
    apply (before_irrefl rv target (last rest d)).
    + apply teq_sym. eapply teq_trans; [exact H|]. eapply teq_trans; eauto.
    + apply SS_last; auto.
  - intro Q. destruct (teqb s1 target) eqn:Q2; auto.
    intros d Hr. specialize (EI d ltac:(discriminate)).
    assert (last (target :: rest) d = last rest d) as EL by (destruct rest; [congruence|reflexivity]).
    rewrite EL in EI; auto.
Qed.

(** the "get next time point" statement *)
Definition path_of (cur tgt : T) (todo : list T) : list T :=
  if teqb cur tgt then todo else tgt :: todo.

Lemma get_target cur tgt todo target rest :
  path_of cur tgt todo = target :: rest ->
  (if teqb cur tgt then
     match todo with [] => @wraise T X Y _ StopIteration | s :: r => wret (s, r) end
   else wret (tgt, todo)) = wret (target, rest).
Proof. unfold path_of; destruct (teqb cur tgt); intro H; [subst; auto | inversion H; auto]. Qed.

Lemma linv_nonempty i cur path ti :
  linv i cur path -> nth_error tt i = Some ti -> exists target rest, path = target :: rest.
Proof.
  intros (_ & _ & _ & HI & _) H. rewrite (skipn_cons _ _ H) in HI.
  destruct (HI ti (or_introl eq_refl)) as [_ [s [Hs _]]].
  destruct path; [destruct Hs | eauto].
Qed.

(** Termination and grid, steps not shortened. *)
Lemma main_loop_total : total_cb cb -> nonadaptive cb ->
  forall fuel st i cur tgt todo sw xw,
  i <= length tt -> sw <> [] -> last sw cur = cur ->
  linv i cur (path_of cur tgt todo) -> endinv i (path_of cur tgt todo) ->
  length (path_of cur tgt todo) <= fuel ->
  exists tr st', main_loop fuel st i cur tgt todo sw xw = (tr, Ok st') /\
                 visited rv tr = path_of cur tgt todo.
Proof.
  intros (_ & TN & TS & _) NA.
  induction fuel as [|fuel IH]; intros st i cur tgt todo sw xw Hi Hsw Hl LI EI Hf.
  - assert (path_of cur tgt todo = []) as P by (destruct (path_of cur tgt todo); auto; simpl in Hf; lia).
    simpl. destruct (i <? length tt) eqn:L.
    + apply Nat.ltb_lt in L. destruct (nth_error tt i) as [ti|] eqn:N.
      2: { apply nth_error_None in N; lia. }
      destruct (linv_nonempty _ _ _ _ LI N) as (? & ? & ?); congruence.
    + exists [], st; rewrite P; auto.
  - simpl. destruct (i <? length tt) eqn:L.
    2: { apply Nat.ltb_ge in L. exists [], st; split; auto. simpl.
         destruct (path_of cur tgt todo) as [|a p] eqn:P; auto.
         exfalso. specialize (EI cur ltac:(discriminate)).
         rewrite skipn_all2 in EI by lia. eapply InT_nil; eauto. }
    apply Nat.ltb_lt in L. destruct (nth_error tt i) as [ti|] eqn:N.
    2: { apply nth_error_None in N; lia. }
    destruct (linv_nonempty _ _ _ _ LI N) as (target & rest & P).
    rewrite (get_target _ _ _ _ _ P). rewrite P in *.
    unfold wret at 1. simpl.
    destruct (TN (iv rv tt steps i) (st_s st) sw target xw) as (s' & t' & x' & EN).
    assert (t' = target) by (eapply NA; eauto); subst t'.
    rewrite EN. simpl.
    assert (LT : last sw target = cur).
    { rewrite <- Hl. apply last_any; auto. }
    destruct LI as (SP & Nc & Np & HI & ST).
    inversion SP as [|? ? SP1 SP2]; subst a l.
    assert (B : before rv cur target) by (inversion SP2; auto).
    destruct (before_num _ _ _ B) as [_ Nt].
    destruct (linv_step i cur target rest target ti) as [NB [LS1 LS2]]; auto.
    { repeat split; auto; apply HI; auto. }
    assert (O : order_ok rv (last sw target) target target = true).
    { apply order_ok_spec. rewrite LT; auto. }
    rewrite O. simpl in LS1, LS2. unfold isnum in Nt. rewrite Nt in LS1, LS2.
    destruct (endinv_step i target rest target ti) as [ES1 ES2]; auto.
    { intros t Ht; apply HI; auto. }
    simpl in ES1, ES2. rewrite Nt in ES1, ES2.
    unfold M_paths.store_if_reached. rewrite N.
    assert (D : (if rv then tltb target ti else tltb ti target) = false).
    { destruct rv; simpl in NB; [destruct (tltb target ti)|destruct (tltb ti target)]; auto; exfalso; auto. }
    rewrite D.
    assert (PO : path_of target target rest = rest) by (unfold path_of; rewrite Nt; auto).
    assert (SW : tl sw ++ [target] <> []) by (destruct (tl sw); discriminate).
    assert (LSW : last (tl sw ++ [target]) target = target) by apply last_last.
    simpl in Hf.
    destruct (teqb ti target) eqn:Q.
    + destruct (TS (iv rv tt steps i) s' i target x') as (s'' & y & ES).
      cbn [st_s st_xx st_info]. rewrite ES. simpl.
      destruct (IH (mkSt s'' (upd (st_xx st) (view i) (Some y)) (bump 1 (st_info st))) (i + 1) target target rest
                   (tl sw ++ [target]) (tl xw ++ [x'])) as (tr & st' & E & V); auto.
      * lia.
      * rewrite PO; apply LS1; auto.
      * rewrite PO; apply ES1; auto.
      * rewrite PO; lia.
      * rewrite E. eexists; eexists; split; [reflexivity|].
        simpl. rewrite eqb_reflx. simpl. rewrite V, PO; auto.
    + simpl.
      destruct (IH (mkSt s' (st_xx st) (bump 0 (st_info st))) (i + 0) target target rest
                   (tl sw ++ [target]) (tl xw ++ [x'])) as (tr & st' & E & V); auto.
      * lia.
      * rewrite PO, Nat.add_0_r; apply LS2; auto.
      * rewrite PO, Nat.add_0_r; apply ES2; auto.
      * rewrite PO; lia.
      * rewrite E. eexists; eexists; split; [reflexivity|].
        simpl. rewrite eqb_reflx. simpl. rewrite V, PO; auto.
Qed.

(** Error analysis for arbitrary (adaptive) steps. *)
Lemma main_loop_err : total_cb cb ->
  forall fuel st i cur tgt todo sw xw tr e,
  i <= length tt -> sw <> [] -> last sw cur = cur ->
  linv i cur (path_of cur tgt todo) ->
  main_loop fuel st i cur tgt todo sw xw = (tr, Err e) ->
  e = OutOfFuel \/
  (e = RuntimeError /\ exists tr0 sw0 xw0 target s' x',
     tr = tr0 ++ [EvNext rv sw0 xw0 target s' x'] /\ bad_step rv (last sw0 target) target s').
Proof.
  intros (_ & TN & TS & _).
  induction fuel as [|fuel IH]; intros st i cur tgt todo sw xw tr e Hi Hsw Hl LI H.
  - simpl in H. destruct (i <? length tt); inversion H; auto.
  - simpl in H. destruct (i <? length tt) eqn:L; [|discriminate].
    apply Nat.ltb_lt in L. destruct (nth_error tt i) as [ti|] eqn:N.
    2: { apply nth_error_None in N; lia. }
    destruct (linv_nonempty _ _ _ _ LI N) as (target & rest & P).
    rewrite (get_target _ _ _ _ _ P) in H. rewrite P in *.
    unfold wret at 1 in H. simpl in H.
    destruct (TN (iv rv tt steps i) (st_s st) sw target xw) as (s' & s1 & x' & EN).
    rewrite EN in H. simpl in H.
    assert (LT : last sw target = cur).
    { rewrite <- Hl. apply last_any; auto. }
    destruct (order_ok rv (last sw target) s1 target) eqn:O.
    2: { inversion H; subst. right; split; auto.
         exists [], sw, xw, target, s1, x'. split; auto.
         unfold bad_step. rewrite <- order_ok_spec. congruence. }
    apply order_ok_spec in O. rewrite LT in O. destruct O as [O1 O2].
    destruct (linv_step i cur target rest s1 ti LI N O1 O2) as [NB [LS1 LS2]].
    unfold M_paths.store_if_reached in H. rewrite N in H.
    assert (D : (if rv then tltb s1 ti else tltb ti s1) = false).
    { destruct rv; simpl in NB; [destruct (tltb s1 ti)|destruct (tltb ti s1)]; auto; exfalso; auto. }
    rewrite D in H.
    assert (SW : tl sw ++ [s1] <> []) by (destruct (tl sw); discriminate).
    assert (LSW : last (tl sw ++ [s1]) s1 = s1) by apply last_last.
    assert (PO : path_of s1 target rest = if teqb s1 target then rest else target :: rest) by reflexivity.
    destruct (teqb ti s1) eqn:Q.
    + destruct (TS (iv rv tt steps i) s' i s1 x') as (s'' & y & ES).
      cbn [st_s st_xx st_info] in H. rewrite ES in H. simpl in H.
      destruct (main_loop fuel (mkSt s'' (upd (st_xx st) (view i) (Some y)) (bump 1 (st_info st))) (i + 1) s1 target rest
                   (tl sw ++ [s1]) (tl xw ++ [x'])) as [tr1 r] eqn:E.
      simpl in H. inversion H; subst.
      destruct (LS1 eq_refl) as [_ LS3].
      eapply IH in E; [|lia|exact SW|exact LSW|rewrite PO; apply LS3].
      destruct E as [->|(-> & tr0 & sw0 & xw0 & t0 & s0 & x0 & -> & B)]; auto.
      right; split; auto. exists (EvNext rv sw xw target s1 x' :: EvStore rv (view i) s1 x' y :: tr0), sw0, xw0, t0, s0, x0.
      split; auto.
    + simpl in H.
      destruct (main_loop fuel (mkSt s' (st_xx st) (bump 0 (st_info st))) (i + 0) s1 target rest
                   (tl sw ++ [s1]) (tl xw ++ [x'])) as [tr1 r] eqn:E.
      simpl in H. inversion H; subst.
      eapply IH in E; [|lia|exact SW|exact LSW|rewrite PO, Nat.add_0_r; apply LS2; auto].
      destruct E as [->|(-> & tr0 & sw0 & xw0 & t0 & s0 & x0 & -> & B)]; auto.
      right; split; auto. exists (EvNext rv sw xw target s1 x' :: tr0), sw0, xw0, t0, s0, x0.
      split; auto.
Qed.

(** initial stores *)
Lemma store_initial_total : total_cb cb ->
  forall sw xw st i todo,
  length sw = length xw -> i <= length tt ->
  StronglySorted (before rv) (sw ++ todo) -> Forall isnum (sw ++ todo) ->
  (forall t, In t (skipn i tt) -> isnum t /\ InT t (sw ++ todo)) ->
  StronglySorted (before rv) (skipn i tt) ->
  endinv i (sw ++ todo) ->
  exists tr st' i', store_initial st i sw xw = (tr, Ok (st', i')) /\ i <= i' <= length tt /\
    (forall t, In t (skipn i' tt) -> isnum t /\ InT t todo) /\
    StronglySorted (before rv) (skipn i' tt) /\ endinv i' todo.
Proof.
  intros (_ & _ & TS & _).
  induction sw as [|s sw IH]; intros xw st i todo Hl Hi SP Np HI ST EI.
  - destruct xw; [|discriminate]. exists [], st, i. simpl. repeat split; auto; apply HI; auto.
  - destruct xw as [|x xw]; [discriminate|]. simpl.
    assert (L : i < length tt).
    { destruct (Nat.lt_ge_cases i (length tt)) as [|G]; auto. exfalso.
      specialize (EI s ltac:(discriminate)). rewrite skipn_all2 in EI by lia.
      eapply InT_nil; eauto. }
    destruct (nth_error tt i) as [ti|] eqn:N.
    2: { apply nth_error_None in N; lia. }
    assert (E := skipn_cons _ _ N).
    simpl in SP, Np.
    inversion SP as [|? ? SP1 SP2]; subst. inversion_clear Np as [|? ? Ns Np'].
    assert (TI : teqb s ti = true \/ before rv s ti).
    { rewrite E in HI. destruct (HI ti (or_introl eq_refl)) as [_ It].
      simpl in It. apply InT_cons in It. destruct It as [H|[u [Hu Eu]]].
      - left; apply teq_sym; auto.
      - right. rewrite Forall_forall in SP2. apply (before_eq_r rv ti u s Eu); auto. }
    unfold M_paths.store_if_reached. rewrite N.
    assert (NB : ~ before rv ti s).
    { intro B. destruct TI as [Q|Q].
      - apply (before_irrefl rv ti s); auto. apply teq_sym; auto.
      - eapply before_asym; eauto. }
    assert (D : (if rv then tltb s ti else tltb ti s) = false).
    { destruct rv; simpl in NB; [destruct (tltb s ti)|destruct (tltb ti s)]; auto; exfalso; auto. }
    rewrite D.
    destruct (endinv_step i s (sw ++ todo) s ti EI N SP ST) as [ES1 ES2].
    { intros t Ht; apply HI; auto. }
    simpl in ES1, ES2. unfold isnum in Ns. rewrite Ns in ES1, ES2.
    destruct (teqb ti s) eqn:Q.
    + destruct (TS (iv rv tt steps i) (st_s st) i s x) as (s'' & y & EST).
      rewrite EST. simpl.
      destruct (IH xw (mkSt s'' (upd (st_xx st) (view i) (Some y)) (st_info st)) (i + 1) todo)
        as (tr & st' & i' & E' & B' & R1 & R2 & R3); auto.
      * lia.
      * intros t Ht. rewrite E in HI, ST. destruct (HI t (or_intror Ht)) as [Nt It].
        split; auto. simpl in It. apply InT_cons in It. destruct It as [H|H]; auto. exfalso.
        inversion_clear ST as [|? ? _ F]. rewrite Forall_forall in F. specialize (F t Ht).
        apply (before_irrefl rv ti t); auto. eapply teq_trans; [exact Q | apply teq_sym; auto].
      * rewrite E in ST. inversion_clear ST; auto.
      * rewrite E'. eexists _, st', i'. split; [reflexivity|]. repeat split; auto; try lia; apply R1; auto.
    + simpl.
      destruct (IH xw st (i + 0) todo)
        as (tr & st' & i' & E' & B' & R1 & R2 & R3); auto; try lia; rewrite Nat.add_0_r in *; auto.
      * intros t Ht. destruct (HI t Ht) as [Nt It].
        split; auto. simpl in It. apply InT_cons in It. destruct It as [H|H]; auto. exfalso.
        rewrite E in Ht, ST. destruct Ht as [->|Ht]; [congruence|].
        inversion_clear ST as [|? ? _ F]. rewrite Forall_forall in F. specialize (F t Ht).
        destruct TI as [TI|TI]; [rewrite (teq_sym _ _ TI) in Q; discriminate|].
        apply (before_irrefl rv s t); [apply teq_sym; auto|].
        eapply before_trans; eauto.
      * rewrite E'. eexists _, st', i'. split; [reflexivity|]. repeat split; auto; try lia; apply R1; auto.
Qed.

(** well formed pass *)
Definition good_pass : Prop :=
  StronglySorted (before rv) steps /\ Forall isnum steps /\
  StronglySorted (before rv) tt /\ Forall isnum tt /\
  (forall t, In t tt -> InT t steps) /\
  (forall d, steps <> [] -> InT (last steps d) tt).

Lemma good_pass_init : total_cb cb -> good_pass -> 2 <= K -> K - 1 <= length steps ->
  forall st, exists tr s' xw s0 sw' tr1 st1 i,
  take_steps (K - 1) steps = Ok (s0 :: sw', skipn (K - 1) steps) /\
  firstn (K - 1) steps = s0 :: sw' /\
  cb_begin cb (iv rv tt steps 0) (st_s st) (s0 :: sw') = Ok (s', xw) /\
  store_initial (mkSt s' (st_xx st) (st_info st)) 0 (s0 :: sw') xw = (tr1, Ok (st1, i)) /\
  i <= length tt /\
  let cur := last (s0 :: sw') s0 in
  linv i cur (path_of cur cur (skipn (K - 1) steps)) /\
  endinv i (path_of cur cur (skipn (K - 1) steps)) /\
  path_of cur cur (skipn (K - 1) steps) = skipn (K - 1) steps /\
  tr = [] ++ [EvBegin rv (s0 :: sw') xw] ++ tr1.
Proof.
  intros TC GP HK HL st.
  destruct GP as (SP & Ns & ST & Nt & HI & HE).
  assert (TT := take_steps_total _ _ HL).
  destruct (firstn (K - 1) steps) as [|s0 sw'] eqn:F.
  { exfalso. apply (f_equal (@length T)) in F. rewrite firstn_length in F. simpl in F. lia. }
  destruct TC as (TB & TN & TS & TE).
  destruct (TB (iv rv tt steps 0) (st_s st) (s0 :: sw')) as (s' & xw & EB & Lxw).
  assert (SPL : (s0 :: sw') ++ skipn (K - 1) steps = steps) by (rewrite <- F; apply firstn_skipn).
  destruct (store_initial_total (conj TB (conj TN (conj TS TE))) (s0 :: sw') xw
              (mkSt s' (st_xx st) (st_info st)) 0 (skipn (K - 1) steps))
    as (tr1 & st1 & i & E1 & B1 & R1 & R2 & R3); auto.
  - lia.
  - rewrite SPL; auto.
  - rewrite SPL; auto.
  - rewrite SPL. simpl. intros t Ht; split; auto. rewrite Forall_forall in Nt; auto.
  - rewrite SPL. intros d Hd. simpl; auto.
  - assert (NC : isnum (last (s0 :: sw') s0)).
    { rewrite Forall_forall in Ns. apply Ns. rewrite <- SPL. apply in_or_app; left.
      rewrite (app_removelast_last s0 (l := s0 :: sw')) at 2 by discriminate.
      apply in_or_app; right; left; auto. }
    assert (PO : path_of (last (s0 :: sw') s0) (last (s0 :: sw') s0) (skipn (K - 1) steps)
                 = skipn (K - 1) steps).
    { unfold path_of. unfold isnum in NC. rewrite NC; auto. }
    eexists _, s', xw, s0, sw', tr1, st1, i. repeat split; auto.
    + lia.
    + cbn zeta. rewrite PO.
      rewrite <- SPL in SP.
      rewrite (app_removelast_last s0 (l := s0 :: sw')) in SP by discriminate.
      rewrite <- app_assoc in SP. apply SS_app in SP. destruct SP as [_ [SP _]]. exact SP.
    + rewrite PO. apply Forall_skipn; auto.
    + apply R1; auto.
    + rewrite PO; apply R1; auto.
    + rewrite PO; auto.
Qed.

Theorem generate_paths_total fuel st :
  total_cb cb -> nonadaptive cb -> good_pass -> 2 <= K -> K - 1 <= length steps ->
  length steps <= fuel ->
  exists tr st', generate_paths fuel st = (tr, Ok st') /\ visited rv tr = steps.
Proof.
  intros TC NA GP HK HL HF.
  destruct (good_pass_init TC GP HK HL st)
    as (trx & s' & xw & s0 & sw' & tr1 & st1 & i & E1 & EF & E2 & E3 & Hi & LI & EI & PO & _).
  unfold M_paths.generate_paths. rewrite E1. cbn [wlift wbind]. rewrite E2. cbn [wlift wbind].
  rewrite E3. cbn [wbind].
  destruct (main_loop_total TC NA fuel st1 i (last (s0 :: sw') s0) (last (s0 :: sw') s0)
              (skipn (K - 1) steps) (s0 :: sw') xw) as (tr2 & st2 & E4 & V); auto.
  - discriminate.
  - apply last_any; discriminate.
  - rewrite PO, skipn_length. lia.
  - rewrite E4. cbn [wbind]. assert (TB := TC). destruct TC as (_ & _ & _ & TE).
    destruct (TE (iv rv tt steps (length tt)) (st_s st2)) as (s3 & E5).
    rewrite E5. simpl. eexists _, _; split; [reflexivity|].
    simpl. rewrite eqb_reflx. rewrite !visited_app, V, PO. simpl. rewrite eqb_reflx, app_nil_r.
    assert (length (s0 :: sw') = length xw) as LX.
    { destruct TB as (TB & _). destruct (TB (iv rv tt steps 0) (st_s st) (s0 :: sw')) as (a & b & E & L).
      rewrite E in E2. injection E2 as <- <-. auto. }
    destruct (store_initial_ok cb rv tt steps view _ _ _ _ _ _ _ E3 LX ltac:(lia)) as (_ & -> & _).
    simpl app. change (s0 :: sw' ++ skipn (K - 1) steps) with ((s0 :: sw') ++ skipn (K - 1) steps).
    rewrite <- EF. apply firstn_skipn.
Qed.
End Pass.
End L.
