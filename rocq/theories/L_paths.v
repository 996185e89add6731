(** Lemmas about the simulation engine. *)
From Coq Require Import List ZArith Bool Lia Sorting.Sorted.
From Verif Require Import Base BaseOrd M_paths S_paths L_ord.
Import ListNotations.

Section Monad.
Context {T : Type} {X Y : Type}.

Lemma wbind_ok {A B} (m : @W T X Y A) (f : A -> @W T X Y B) tr b :
  wbind m f = (tr, Ok b) <->
  exists tr1 a tr2, m = (tr1, Ok a) /\ f a = (tr2, Ok b) /\ tr = tr1 ++ tr2.
Proof.
  destruct m as [tr1 [a|e]]; simpl.
  - destruct (f a) as [tr2 r] eqn:E. split.
    + intro H; inversion H; subst. exists tr1, a, tr2; auto.
    + intros (tr1' & a' & tr2' & H1 & H2 & H3). inversion H1; subst.
      rewrite E in H2; inversion H2; subst; auto.
  - split; [discriminate|]. intros (? & ? & ? & H & _); discriminate.
Qed.

Lemma wbind_err {A B} (m : @W T X Y A) (f : A -> @W T X Y B) tr e :
  wbind m f = (tr, Err e) <->
  m = (tr, Err e) \/
  exists tr1 a tr2, m = (tr1, Ok a) /\ f a = (tr2, Err e) /\ tr = tr1 ++ tr2.
Proof.
  destruct m as [tr1 [a|e']]; simpl.
  - destruct (f a) as [tr2 r] eqn:E. split.
    + intro H; inversion H; subst. right; exists tr1, a, tr2; auto.
    + intros [H|(tr1' & a' & tr2' & H1 & H2 & H3)]; [discriminate|]. inversion H1; subst.
      rewrite E in H2; inversion H2; subst; auto.
  - split; [intro H; left; inversion H; auto|].
    intros [H|(? & ? & ? & H & _)]; [inversion H; auto | discriminate].
Qed.

Lemma wlift_ok {A} (ev : A -> list (event T X Y)) m tr a :
  wlift ev m = (tr, Ok a) <-> m = Ok a /\ tr = ev a.
Proof.
  destruct m; simpl; split.
  - intro H; inversion H; auto.
  - intros [H1 H2]; inversion H1; subst; auto.
  - discriminate.
  - intros [H _]; discriminate.
Qed.
Lemma wlift_err {A} (ev : A -> list (event T X Y)) m tr e :
  wlift ev m = (tr, Err e) <-> m = Err e /\ tr = [].
Proof.
  destruct m; simpl; split.
  - discriminate.
  - intros [H _]; discriminate.
  - intro H; inversion H; auto.
  - intros [H1 H2]; inversion H1; subst; auto.
Qed.
End Monad.

Ltac winv :=
  repeat match goal with
    | H : wbind _ _ = (_, Ok _) |- _ =>
        apply wbind_ok in H; let tr1 := fresh "tr" in let a := fresh "a" in
        let tr2 := fresh "tr" in let H1 := fresh "E" in let H2 := fresh "E" in
        destruct H as (tr1 & a & tr2 & H1 & H2 & ?)
    | H : wlift _ _ = (_, Ok _) |- _ => apply wlift_ok in H; destruct H as [H ?]
    | H : wlift _ _ = (_, Err _) |- _ => apply wlift_err in H; destruct H as [H ?]
    | H : wret _ = (_, _) |- _ => unfold wret in H; inversion H; clear H; subst
    | H : wraise _ = (_, _) |- _ => unfold wraise in H; inversion H; clear H; subst
    | a : (_ * _)%type |- _ => destruct a
    end; subst.

Lemma last_any {A} (l : list A) (a b : A) : l <> [] -> last l a = last l b.
Proof.
  induction l as [|x l IH]; intro H; [congruence|].
  destruct l as [|y l]; [reflexivity|].
  change (last (y :: l) a = last (y :: l) b). apply IH; discriminate.
Qed.

Section L.
Context {T : Type} {TO : TOrd T} {S X Y : Type}.
Notation event := (event T X Y).
Notation st_t := (st_t T S Y).

(** ** Projections of traces *)
Lemma visited_app r (a b : list event) : visited r (a ++ b) = visited r a ++ visited r b.
Proof. apply flat_map_app. Qed.
Lemma stores_app r (a b : list event) : stores r (a ++ b) = stores r a ++ stores r b.
Proof. apply flat_map_app. Qed.
Lemma nsteps_app (a b : list event) : nsteps (a ++ b) = nsteps a + nsteps b.
Proof. unfold nsteps; rewrite filter_app, app_length; auto. Qed.

Definition apply_writes (l : list (nat * T * X * Y)) (xx : list (option Y)) :=
  fold_left (fun xx w => upd xx (st_idx w) (Some (st_val w))) l xx.

Lemma apply_writes_app l1 l2 xx : apply_writes (l1 ++ l2) xx = apply_writes l2 (apply_writes l1 xx).
Proof. apply fold_left_app. Qed.

Lemma upd_length {A} (l : list A) i y : length (upd l i y) = length l.
Proof. revert i; induction l; destruct i; simpl; auto. Qed.
Lemma upd_nth {A} (l : list A) i j y :
  nth_error (upd l i y) j = if i =? j then option_map (fun _ => y) (nth_error l j) else nth_error l j.
Proof.
  revert i j; induction l as [|x l IH]; destruct i, j; simpl; auto.
  - destruct (_ =? _); auto.
Qed.

Lemma apply_writes_length l xx : length (apply_writes l xx) = length xx.
Proof. revert xx; induction l; simpl; intros; auto. rewrite IHl, upd_length; auto. Qed.
Lemma apply_writes_nth l xx i :
  i < length xx ->
  nth_error (apply_writes l xx) i = Some (last_write i l (nth i xx None)).
Proof.
  revert xx; induction l as [|w l IH]; intros xx Hi; simpl.
  - apply nth_error_nth'; auto.
  - fold (apply_writes l (upd xx (st_idx w) (Some (st_val w)))).
    rewrite IH by (rewrite upd_length; auto). f_equal. f_equal.
    assert (nth_error (upd xx (st_idx w) (Some (st_val w))) i =
            Some (nth i (upd xx (st_idx w) (Some (st_val w))) None)) as E
      by (apply nth_error_nth'; rewrite upd_length; auto).
    rewrite upd_nth in E.
    destruct (st_idx w =? i).
    + rewrite (nth_error_nth' xx None Hi) in E; simpl in E; inversion E; auto.
    + rewrite (nth_error_nth' xx None Hi) in E; inversion E; auto.
Qed.

(** ** One pass: facts true of every run that ends normally *)
Section Pass.
Variable cb : callbacks T S X Y.
Variable K : nat.
Variable rv : bool.
Variable tt steps : list T.
Variable view : nat -> nat.

Notation store_if_reached := (store_if_reached cb rv tt steps view).
Notation main_loop := (main_loop cb rv tt steps view).
Notation store_initial := (store_initial cb rv tt steps view).
Notation generate_paths := (generate_paths cb K rv tt steps view).

Definition pass_ok (tr : list event) := Forall (fun e => ev_pass e = rv) tr.

Lemma pass_ok_other tr : pass_ok tr -> stores (negb rv) tr = [] /\ visited (negb rv) tr = [].
Proof.
  induction 1 as [|e tr H F [IH1 IH2]]; simpl; auto.
  rewrite IH1, IH2, H. replace (Bool.eqb rv (negb rv)) with false by (destruct rv; auto).
  split; auto. destruct e; simpl in *; subst; auto.
  replace (Bool.eqb rv (negb rv)) with false by (destruct rv; auto); auto.
Qed.

Lemma sir_ok st i s x tr st' di :
  store_if_reached st i s x = (tr, Ok (st', di)) ->
  pass_ok tr /\ visited rv tr = [] /\ nsteps tr = 0 /\
  exists ti, nth_error tt i = Some ti /\
  ~ before rv ti s /\
  ((di = 1 /\ teqb ti s = true /\
     exists s' y, cb_store cb (iv rv tt steps i) (st_s st) i s x = Ok (s', y) /\
       stores rv tr = [(view i, s, x, y)] /\ tr = [EvStore rv (view i) s x y] /\
       st' = mkSt s' (upd (st_xx st) (view i) (Some y)) (st_info st))
   \/ (di = 0 /\ teqb ti s = false /\ tr = [] /\ st' = st)).
Proof.
  unfold M_paths.store_if_reached. destruct (nth_error tt i) as [ti|] eqn:N; [|discriminate].
  destruct (if rv then tltb s ti else tltb ti s) eqn:D; [discriminate|].
  assert (NB : ~ before rv ti s) by (destruct rv; simpl; congruence).
  destruct (teqb ti s) eqn:E; intro H.
  - winv. simpl in *.
    assert (EQ : Bool.eqb rv rv = true) by apply eqb_reflx.
    rewrite !EQ. repeat split; auto.
    + constructor; [reflexivity | constructor].
    + exists ti; repeat split; auto. left; repeat split; auto.
      exists s0, y; repeat split; auto.
  - winv. repeat split; auto; [constructor|].
    exists ti; repeat split; auto; right; auto.
Qed.

(** invariants of the loop that hold for every terminating run *)
Lemma main_loop_ok fuel : forall st i cur tgt todo sw xw tr st',
  main_loop fuel st i cur tgt todo sw xw = (tr, Ok st') ->
  i <= length tt -> sw <> [] ->
  pass_ok tr /\
  map st_idx (stores rv tr) = map view (seq i (length tt - i)) /\
  Forall2 (fun t w => teqb t (st_time w) = true) (skipn i tt) (stores rv tr) /\
  st_xx st' = apply_writes (stores rv tr) (st_xx st) /\
  Sorted (before rv) (last sw cur :: visited rv tr) /\
  (forall inf, st_info st = Some inf ->
     st_info st' = Some (mkInfo (info_t0 inf) (info_tmin inf) (info_tmax inf)
        (nsteps tr + computed_steps inf) (length (stores rv tr) + stored_steps inf))) /\
  length (visited rv tr) = nsteps tr.
Proof.
  induction fuel as [|fuel IH]; intros st i cur tgt todo sw xw tr st' H Hi Hsw.
  - simpl in H. destruct (i <? length tt) eqn:L; [discriminate|]. winv.
    apply Nat.ltb_ge in L. assert (i = length tt) by lia; subst i.
    rewrite Nat.sub_diag, skipn_all. simpl. repeat split; auto; try constructor; auto.
    intros inf E; rewrite E; destruct inf; auto.
  - simpl in H. destruct (i <? length tt) eqn:L.
    2: { winv. apply Nat.ltb_ge in L. assert (i = length tt) by lia; subst i.
         rewrite Nat.sub_diag, skipn_all. simpl. repeat split; auto; try constructor; auto.
         intros inf E; rewrite E; destruct inf; auto. }
    apply Nat.ltb_lt in L.
    apply wbind_ok in H. destruct H as (tr0 & [t todo'] & trA & E0 & H & ->).
    apply wbind_ok in H. destruct H as (tr2 & [[snew t0] x] & trB & E1 & H & ->).
    apply wlift_ok in E1. destruct E1 as [E1 ->].
    destruct (order_ok rv (last sw t) t0 t) eqn:O; [|discriminate].
    apply wbind_ok in H. destruct H as (tr1 & [st1 n] & tr4 & E & E3 & ->).
    apply sir_ok in E. destruct E as (P1 & V1 & N1 & ti & Hti & NB & C).
    assert (tr0 = []) as ->.
    { destruct (teqb cur tgt); [destruct todo|]; winv; auto. }
    assert (Hlast : last sw t = last sw cur).
    { apply last_any; auto. }
    assert (Hstep : before rv (last sw cur) t0).
    { rewrite <- Hlast. unfold order_ok in O.
      destruct rv; apply andb_true_iff in O; simpl; tauto. }
    assert (Hdi : i + n <= length tt).
    { destruct C as [[-> _]|[-> _]]; lia. }
    destruct (IH _ _ _ _ _ _ _ _ _ E3 Hdi) as (P2 & I2 & F2 & X2 & V2 & Inf2 & VN2).
    { destruct sw as [|a [|b sw']]; simpl; discriminate. }
    assert (EQ : Bool.eqb rv rv = true) by apply eqb_reflx.
    assert (LL : last (tl sw ++ [t0]) t0 = t0) by apply last_last.
    rewrite LL in V2.
    change ([] ++ [EvNext rv sw xw t t0 x] ++ tr1 ++ tr4)
      with (EvNext rv sw xw t t0 x :: (tr1 ++ tr4)).
    simpl. rewrite EQ. rewrite stores_app, visited_app, V1. simpl.
    split; [|split; [|split; [|split; [|split; [|split]]]]].
    + constructor; [reflexivity|]. apply Forall_app; split; auto.
    + rewrite map_app, I2.
      destruct C as [(-> & _ & s' & y & _ & -> & _)|(-> & _ & -> & _)].
      * simpl. replace (length tt - i) with (Datatypes.S (length tt - (i + 1))) by lia.
        simpl. rewrite Nat.add_1_r; auto.
      * simpl. rewrite Nat.add_0_r; auto.
    + destruct C as [(-> & Et & s' & y & _ & -> & _)|(-> & _ & -> & _)].
      * assert (skipn i tt = ti :: skipn (i + 1) tt) as ->.
        { clear - Hti. rewrite Nat.add_1_r. revert i Hti; induction tt as [|z l IH]; destruct i; simpl; intros; try discriminate.
          - inversion Hti; auto.
          - apply IH; auto. }
        simpl; constructor; auto.
      * simpl. rewrite Nat.add_0_r in F2; auto.
    + destruct C as [(-> & Et & s' & y & _ & -> & _ & ->)|(-> & _ & -> & ->)].
      * simpl in *; rewrite X2; auto.
      * simpl in *; rewrite X2; auto.
    + constructor; auto.
    + intros inf Einf.
      destruct C as [(-> & Et & s' & y & _ & -> & -> & ->)|(-> & _ & -> & ->)];
        simpl in *; rewrite Einf in *; simpl in *;
        specialize (Inf2 _ eq_refl); rewrite Inf2; simpl; f_equal; f_equal;
        unfold nsteps; simpl; lia.
    + unfold nsteps in *. simpl. rewrite filter_app, app_length, <- VN2.
      rewrite N1. reflexivity.
Qed.

Lemma store_initial_ok : forall sw xw st i tr st' i',
  store_initial st i sw xw = (tr, Ok (st', i')) ->
  length sw = length xw -> i <= length tt ->
  pass_ok tr /\ visited rv tr = [] /\ nsteps tr = 0 /\
  i <= i' <= length tt /\
  map st_idx (stores rv tr) = map view (seq i (i' - i)) /\
  Forall2 (fun t w => teqb t (st_time w) = true) (firstn (i' - i) (skipn i tt)) (stores rv tr) /\
  st_xx st' = apply_writes (stores rv tr) (st_xx st) /\
  st_info st' = st_info st.
Proof.
  induction sw as [|s sw IH]; intros xw st i tr st' i' H Hl Hi.
  - destruct xw; [|discriminate]. simpl in H. winv.
    rewrite Nat.sub_diag. simpl. repeat split; auto; try lia; constructor.
  - destruct xw as [|x xw]; [discriminate|]. simpl in H.
    apply wbind_ok in H. destruct H as (tr1 & [st1 n] & tr2 & E & E0 & ->).
    apply sir_ok in E. destruct E as (P1 & V1 & N1 & ti & Hti & NB & C).
    assert (Hlt : i < length tt) by (apply nth_error_Some; congruence).
    assert (Hdi : i + n <= length tt) by (destruct C as [[-> _]|[-> _]]; lia).
    destruct (IH _ _ _ _ _ _ E0 (f_equal pred Hl) Hdi) as (P2 & V2 & N2 & B2 & I2 & F2 & X2 & In2).
    rewrite stores_app, visited_app, nsteps_app, V1, V2, N1, N2.
    split; [apply Forall_app; auto|]. split; auto. split; auto.
    split; [destruct C as [[-> _]|[-> _]]; lia|].
    destruct C as [(-> & Et & s' & y & _ & -> & -> & ->)|(-> & _ & -> & ->)]; simpl in *.
    + split; [|split; [|split; auto]].
      * rewrite I2. replace (i' - i) with (Datatypes.S (i' - (i + 1))) by lia.
        simpl; rewrite Nat.add_1_r; auto.
      * assert (skipn i tt = ti :: skipn (i + 1) tt) as ->.
        { clear - Hti. rewrite Nat.add_1_r. revert i Hti; induction tt as [|z l IH]; destruct i; simpl; intros; try discriminate.
          - inversion Hti; auto.
          - apply IH; auto. }
        replace (i' - i) with (Datatypes.S (i' - (i + 1))) by lia.
        simpl; constructor; auto.
    + rewrite Nat.add_0_r in *. repeat split; auto.
Qed.

Lemma take_steps_ok k (l sw rest : list T) :
  take_steps k l = Ok (sw, rest) -> length sw = k /\ l = sw ++ rest.
Proof.
  revert l sw rest; induction k as [|k IH]; intros l sw rest H; simpl in H.
  - inversion H; auto.
  - destruct l as [|s l]; [discriminate|].
    destruct (take_steps k l) as [[sw' rest']|] eqn:E; [|discriminate].
    simpl in H; inversion H; subst. apply IH in E; destruct E as [<- ->]; auto.
Qed.
Lemma take_steps_total k (l : list T) : k <= length l ->
  take_steps k l = Ok (firstn k l, skipn k l).
Proof.
  revert l; induction k as [|k IH]; intros [|s l] H; simpl in *; auto; try lia.
  rewrite IH by lia; auto.
Qed.
Lemma take_steps_fail k (l : list T) : length l < k ->
  take_steps k l = Err StopIteration.
Proof.
  revert l; induction k as [|k IH]; intros [|s l] H; simpl in *; auto; try lia.
  rewrite IH by lia; auto.
Qed.

Theorem generate_paths_ok fuel st tr st' :
  begin_fills cb ->
  generate_paths fuel st = (tr, Ok st') ->
  pass_ok tr /\
  map st_idx (stores rv tr) = map view (seq 0 (length tt)) /\
  Forall2 (fun t w => teqb t (st_time w) = true) tt (stores rv tr) /\
  st_xx st' = apply_writes (stores rv tr) (st_xx st) /\
  firstn (K - 1) (visited rv tr) = firstn (K - 1) steps /\
  length (visited rv tr) = K - 1 + nsteps tr /\
  Sorted (before rv) (skipn (K - 2) (visited rv tr)) /\
  K - 1 <= length steps /\
  (forall inf, st_info st = Some inf -> exists m, m <= K - 1 /\
     st_info st' = Some (mkInfo (info_t0 inf) (info_tmin inf) (info_tmax inf)
        (nsteps tr + computed_steps inf) (length tt - m + stored_steps inf))).
Proof.
  intros BF H. unfold M_paths.generate_paths in H.
  apply wbind_ok in H. destruct H as (trz & [l todo] & tr1 & E & H & ->).
  apply wlift_ok in E. destruct E as [E ->].
  apply take_steps_ok in E. destruct E as [Hk Hst].
  apply wbind_ok in H. destruct H as (trb & [s1 l1] & trc & E1 & H & ->).
  apply wlift_ok in E1. destruct E1 as [E1 ->].
  destruct l as [|s0 sw]; [discriminate|].
  apply wbind_ok in H. destruct H as (tr0 & [st1 n] & trd & E & H & ->).
  apply wbind_ok in H. destruct H as (tr2 & st2 & tre & E2 & H & ->).
  apply wbind_ok in H. destruct H as (trf & s2 & trg & E3 & H & ->).
  apply wlift_ok in E3. destruct E3 as [E3 ->]. unfold wret in H. injection H as <- <-.
  specialize (BF _ _ _ _ _ E1).
  destruct (store_initial_ok _ _ _ _ _ _ _ E ltac:(simpl in *; congruence) ltac:(lia))
    as (P1 & V1 & N1 & B1 & I1 & F1 & X1 & Inf1).
  destruct (main_loop_ok _ _ _ _ _ _ _ _ _ _ E2 ltac:(lia) ltac:(discriminate))
    as (P2 & I2 & F2 & X2 & V2 & Inf2 & VN2).
  assert (EQ : Bool.eqb rv rv = true) by apply eqb_reflx.
  rewrite Nat.sub_0_r in *.
  set (full := [] ++ [EvBegin rv (s0 :: sw) l1] ++ tr0 ++ tr2 ++ [EvEnd rv] ++ []).
  assert (Sf : stores rv full = stores rv tr0 ++ stores rv tr2).
  { unfold full; simpl. rewrite !stores_app; simpl. rewrite app_nil_r; auto. }
  assert (Vf : visited rv full = (s0 :: sw) ++ visited rv tr2).
  { unfold full; simpl. rewrite EQ, !visited_app, V1; simpl. rewrite EQ, app_nil_r; auto. }
  assert (Nf : nsteps full = nsteps tr2).
  { unfold full; simpl app. change (EvBegin rv (s0 :: sw) l1 :: tr0 ++ tr2 ++ [EvEnd rv])
      with ([EvBegin rv (s0 :: sw) l1] ++ tr0 ++ tr2 ++ [EvEnd rv]).
    rewrite !nsteps_app, N1. unfold nsteps at 1 3; simpl; lia. }
  rewrite Sf, Vf, Nf.
  split; [|split; [|split; [|split; [|split; [|split; [|split; [|split]]]]]]].
  - unfold full; simpl. constructor; [reflexivity|].
    apply Forall_app; split; auto. apply Forall_app; split; auto.
  - rewrite map_app, I1, I2, <- map_app. f_equal.
    rewrite <- seq_app. f_equal; lia.
  - rewrite <- (firstn_skipn n tt). apply Forall2_app; auto.
  - simpl. rewrite X2, apply_writes_app, X1; auto.
  - rewrite Hst, <- Hk. rewrite !firstn_app, !firstn_all, Nat.sub_diag; auto.
  - rewrite app_length, VN2, <- Hk; simpl; lia.
  - assert (K - 2 = length (removelast (s0 :: sw))) as HK.
    { assert (HH := app_removelast_last s0 (l := s0 :: sw) ltac:(discriminate)).
      apply (f_equal (@length T)) in HH. rewrite app_length in HH. simpl length in HH at 3. lia. }
    rewrite HK.
    rewrite (app_removelast_last s0 (l := s0 :: sw)) at 2 by discriminate.
    rewrite <- app_assoc, skipn_app, skipn_all, Nat.sub_diag. simpl.
    rewrite (last_any (s0 :: sw) (last (s0 :: sw) s0) s0) in V2 by discriminate. exact V2.
  - rewrite Hst, <- Hk, app_length; simpl; lia.
  - intros inf Einf. exists (length (stores rv tr0)).
    assert (L0 : length (stores rv tr0) = n).
    { rewrite <- (map_length st_idx), I1, map_length, seq_length; auto. }
    split.
    + (* at most K-1 initial stores *)
      clear - E BF Hk. rewrite <- Hk.
      assert (forall sw xw st i tr st' i', store_initial st i sw xw = (tr, Ok (st', i')) ->
                length (stores rv tr) <= length sw) as Q.
      { clear. induction sw as [|s sw IH]; intros xw st i tr st' i' H.
        - simpl in H. winv. simpl; auto.
        - destruct xw as [|x xw]; simpl in H; [winv; simpl; lia|].
          apply wbind_ok in H. destruct H as (tr1 & [st1 n] & tr2 & E & E0 & ->).
          apply sir_ok in E. destruct E as (_ & _ & _ & ti & _ & _ & C).
          apply IH in E0. rewrite stores_app, app_length.
          destruct C as [(_ & _ & ? & ? & _ & -> & _)|(_ & _ & -> & _)]; simpl; lia. }
      eapply Q; eauto.
    + specialize (Inf2 inf). rewrite Inf1 in Inf2. simpl in *. specialize (Inf2 Einf).
      rewrite Inf2. f_equal. f_equal.
      rewrite <- (map_length st_idx (stores rv tr2)), I2, map_length, seq_length. lia.
Qed.
End Pass.
End L.
