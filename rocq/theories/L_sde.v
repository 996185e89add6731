(** Integration of SDEs follows the Euler-Maruyama recursion. *)
From Coq Require Import String List Arith Bool ZArith Lia Sorting.Sorted Sorting.Permutation.
From Verif Require Import Base BaseOrd BaseNum BaseArr M_paths S_paths S_run L_ord L_paths5 L_paths6 L_paths7 L_paths8
  M_sde S_sde.
Import ListNotations.

Lemma Forall2_imp {A B} (P Q : A -> B -> Prop) l l' :
  (forall a b, P a b -> Q a b) -> Forall2 P l l' -> Forall2 Q l l'.
Proof. intros H F. induction F; constructor; auto. Qed.

(** *** sorting strings *)
Lemma str_lt_trans a b c : str_lt a b -> str_lt b c -> str_lt a c.
Proof.
  unfold str_lt. revert b c. induction a as [|x a IH]; intros [|y b] [|z c]; simpl; try congruence.
  destruct (Ascii.compare x y) eqn:E1, (Ascii.compare y z) eqn:E2; try congruence.
  - apply Ascii.compare_eq_iff in E1, E2. subst. 
    assert (E : Ascii.compare z z = Eq) by (apply N.compare_refl). rewrite E. apply IH.
  - apply Ascii.compare_eq_iff in E1. subst. rewrite E2. auto.
  - apply Ascii.compare_eq_iff in E2. subst. rewrite E1. auto.
  - unfold Ascii.compare in *. rewrite N.compare_lt_iff in E1, E2.
    assert (E : N.compare (Ascii.N_of_ascii x) (Ascii.N_of_ascii z) = Lt) by (apply N.compare_lt_iff; lia).
    rewrite E. auto.
Qed.

Lemma str_total a b : str_lt a b \/ a = b \/ str_lt b a.
Proof.
  unfold str_lt. rewrite (String.compare_antisym b a).
  destruct (String.compare a b) eqn:E; auto. apply String.compare_eq_iff in E. auto.
Qed.

Lemma leb_true a b : String.leb a b = true -> a = b \/ str_lt a b.
Proof.
  unfold String.leb, str_lt. destruct (String.compare a b) eqn:E; auto; try discriminate.
  apply String.compare_eq_iff in E. auto.
Qed.
Lemma leb_false a b : String.leb a b = false -> str_lt b a.
Proof.
  unfold String.leb, str_lt. rewrite (String.compare_antisym b a).
  destruct (String.compare a b) eqn:E; auto; try discriminate.
Qed.

Lemma sinsert_In k l x : In x (sinsert k l) <-> x = k \/ In x l.
Proof.
  induction l as [|y l IH]; simpl; [intuition|].
  destruct (String.leb k y); simpl; [intuition|]. rewrite IH. intuition.
Qed.
Lemma ssort_In l x : In x (ssort l) <-> In x l.
Proof. induction l; simpl; [tauto|]. rewrite sinsert_In, IHl. intuition. Qed.
Lemma sinsert_sorted k l : StronglySorted str_lt l -> ~ In k l -> StronglySorted str_lt (sinsert k l).
Proof.
  induction l as [|y l IH]; intros H N; simpl; [repeat constructor|].
  inversion_clear H as [|? ? H1 F].
  destruct (String.leb k y) eqn:E.
  - apply leb_true in E. destruct E as [E|E]; [subst; simpl in N; tauto|].
    constructor; [constructor; auto|]. constructor; auto.
    eapply Forall_impl; [|exact F]. intros a Ha. eapply str_lt_trans; eauto.
  - apply leb_false in E. constructor; [apply IH; auto; simpl in N; tauto|].
    rewrite Forall_forall in *. intros a Ha. apply sinsert_In in Ha. destruct Ha as [->|Ha]; auto.
Qed.
Lemma ssort_sorted l : NoDup l -> StronglySorted str_lt (ssort l).
Proof.
  induction l as [|y l IH]; intro H; simpl; [constructor|]. inversion_clear H as [|? ? N H1].
  apply sinsert_sorted; auto. rewrite ssort_In; auto.
Qed.

Lemma lookup_In {A} k (d : dict A) a : lookup k d = Some a -> In (k, a) d.
Proof.
  induction d as [|[k' b] d IH]; simpl; [discriminate|].
  destruct (String.eqb_spec k k') as [->|N]; [intro H; injection H as ->; auto|auto].
Qed.
Lemma lookup_some {A} k (d : dict A) : In k (keys d) -> exists a, lookup k d = Some a.
Proof.
  induction d as [|[k' b] d IH]; simpl; [tauto|].
  destruct (String.eqb_spec k k') as [->|N]; [eauto|]. intros [H|H]; [congruence|auto].
Qed.
Lemma lookup_none {A} k (d : dict A) : ~ In k (keys d) -> lookup k d = None.
Proof.
  induction d as [|[k' b] d IH]; simpl; auto. intro H.
  destruct (String.eqb_spec k k') as [->|N]; [tauto|]. auto.
Qed.
Lemma lookup_uniq {A} k (d : dict A) a : NoDup (keys d) -> In (k, a) d -> lookup k d = Some a.
Proof.
  induction d as [|[k' b] d IH]; simpl; [tauto|]. intros N [H|H].
  - injection H as -> ->. rewrite String.eqb_refl; auto.
  - inversion_clear N as [|? ? N1 N2]. destruct (String.eqb_spec k k') as [->|NE]; auto.
    exfalso. apply N1. apply (in_map fst) in H. auto.
Qed.
Lemma mem_In k l : mem k l = true <-> In k l.
Proof.
  unfold mem. rewrite existsb_exists. split.
  - intros (x & H & E). apply String.eqb_eq in E. subst; auto.
  - intro H. exists k. split; auto. apply String.eqb_refl.
Qed.

(** *** lists of output points within a grid *)
Section Out.
Context {T : Type} {TO : TOrd T} {TL : TOrdLaws T}.

Lemma memT_spec (t : T) l : memT t l = true <-> InT t l.
Proof.
  unfold memT, InT. rewrite existsb_exists. split; intros (s & H1 & H2); exists s; auto.
Qed.

Lemma filter_ext_in' {A} (f g : A -> bool) l : (forall a, In a l -> f a = g a) -> filter f l = filter g l.
Proof.
  induction l as [|a l IH]; simpl; auto. intro H. rewrite (H a) by auto. rewrite IH by auto. auto.
Qed.

Lemma outputs_align rv (ts tl : list T) :
  StronglySorted (before rv) ts -> StronglySorted (before rv) tl ->
  (forall t, In t tl -> InT t ts) ->
  Forall2 (fun ti t => teqb ti t = true) tl (filter (fun t => memT t tl) ts).
Proof.
  revert tl. induction ts as [|a ts IH]; intros tl S1 S2 H.
  - destruct tl as [|b tl]; [constructor|]. exfalso. eapply InT_nil, H. simpl; eauto.
  - inversion_clear S1 as [|? ? S1' F1]. rewrite Forall_forall in F1.
    destruct tl as [|b tl].
    { simpl. clear. induction ts as [|c ts IH]; simpl; auto; constructor. }
    inversion_clear S2 as [|? ? S2' F2]. rewrite Forall_forall in F2.
    destruct (teqb b a) eqn:E.
    + cbn [filter]. assert (M : memT a (b :: tl) = true).
      { apply memT_spec. exists b. split; [simpl; auto|]. apply teq_sym; auto. }
      rewrite M. constructor; auto.
      rewrite (filter_ext_in' _ (fun t => memT t tl)).
      * apply IH; auto. intros t Ht. assert (Q := H t (or_intror Ht)). apply InT_cons in Q.
        destruct Q as [Q|Q]; auto. exfalso.
        specialize (F2 t Ht). eapply before_irrefl; [|exact F2].
        eapply teq_trans; [exact E|]. apply teq_sym; auto.
      * intros t Ht. unfold memT. simpl. specialize (F1 t Ht).
        destruct (teqb t b) eqn:Q; auto. exfalso. eapply before_irrefl; [|exact F1].
        apply teq_sym. eapply teq_trans; eauto.
    + assert (AF : forall t, In t (b :: tl) -> before rv a t).
      { assert (HB : before rv a b).
        { assert (Q := H b (or_introl eq_refl)). apply InT_cons in Q. destruct Q as [Q|(c & Hc & Q)]; [congruence|].
          rewrite (before_eq_r rv _ _ a Q). apply F1; auto. }
        intros t [<-|Ht]; auto. eapply before_trans; eauto. }
      cbn [filter]. assert (M : memT a (b :: tl) = false).
      { destruct (memT a (b :: tl)) eqn:Q; auto. apply memT_spec in Q. destruct Q as (c & Hc & Q).
        exfalso. eapply before_irrefl; [exact Q|]. apply AF; auto. }
      rewrite M. apply IH; auto; [constructor; auto; apply Forall_forall; auto|].
      intros t Ht. assert (Q := H t Ht). apply InT_cons in Q. destruct Q as [Q|Q]; auto.
      exfalso. eapply before_irrefl; [apply teq_sym; exact Q|]. apply AF; auto.
Qed.

(** filter seen through the states of a chain *)
Lemma filter_map_gen {A B} (f : A -> bool) (g : B -> A) (l : list B) :
  filter f (map g l) = map g (filter (fun p => f (g p)) l).
Proof. induction l as [|b l IH]; simpl; auto. destruct (f (g b)); simpl; rewrite IH; auto. Qed.
End Out.

Section L.
Context {T : Type} {TO : TOrd T} {TL : TOrdLaws T} {V : Type} {NV : Num V} {Wd I : Type}.
Variable tsub : T -> T -> V.
Variable ig : integ T V Wd I.
Notation cb := (sde_cb tsub ig).

Lemma sde_nonadaptive : nonadaptive cb.
Proof using Type.
  intros iv s sw t xw s' t' x'. simpl. unfold sde_next. destruct sw as [|s0 ?], xw as [|x ?]; try discriminate.
  destruct (euler_next _ _ _ _ _) as [[wd' y]|]; simpl; [|discriminate].
  destruct (if ig_getinfo ig then _ else _); simpl; [|discriminate]. congruence.
Qed.
Lemma sde_begin_fills : begin_fills cb.
Proof using Type.
  intros iv s sw s' xw. simpl. unfold sde_begin. destruct sw as [|t0 sw], (iv_steps iv), (iv_tt iv); try discriminate.
  destruct (_ && _); [|discriminate]. destruct (ig_init ig t0); simpl; [|discriminate].
  intro H. injection H as <- <-. simpl. rewrite map_length; auto.
Qed.

Lemma eval_sources_ok ids : forall wd t dt wd' d, eval_sources ig ids wd t dt = Ok (wd', d) ->
  draws ig t dt ids wd wd' d /\ keys d = ids.
Proof using Type.
  induction ids as [|id ids IH]; intros wd t dt wd' d H; simpl in H.
  - injection H as <- <-. split; constructor.
  - destruct (ig_src ig id wd t dt) as [[wd1 z]|] eqn:E; simpl in H; [|discriminate].
    destruct (eval_sources ig ids wd1 t dt) as [[wd2 d2]|] eqn:E2; simpl in H; [|discriminate].
    injection H as <- <-. destruct (IH _ _ _ _ _ E2) as [H1 H2]. split; [econstructor; eauto|]. simpl. congruence.
Qed.

Lemma euler_sum_ok A : forall acc dz sm, euler_sum acc A dz = Ok sm ->
  forall ix, exists terms,
    Forall2 (fun '(id, c) p => exists z, In (id, z) dz /\ p = nmul (bget c ix) (bget z ix)) A terms /\
    bget sm ix = fold_left nadd terms (bget acc ix).
Proof using Type.
  induction A as [|[id a] A IH]; intros acc dz sm H ix; simpl in H.
  - injection H as <-. exists []. split; constructor.
  - destruct (lookup id dz) as [z|] eqn:E; [|discriminate].
    destruct (aop nmul a z) as [p|] eqn:E1; simpl in H; [|discriminate].
    destruct (aop nadd acc p) as [acc'|] eqn:E2; simpl in H; [|discriminate].
    destruct (IH _ _ _ H ix) as (terms & H1 & H2).
    exists (bget p ix :: terms). split.
    + constructor; auto. exists z. split; [apply lookup_In; auto|]. apply (aop_get _ _ _ _ ix E1).
    + simpl. rewrite H2. f_equal. apply (aop_get _ _ _ _ ix E2).
Qed.

Lemma euler_next_step wd s s' x wd' x' : NoDup (ig_ids ig) ->
  euler_next tsub ig wd s s' x = Ok (wd', x') -> euler_step tsub ig wd s s' x wd' x'.
Proof using Type.
  intros ND H. unfold euler_next in H.
  destruct (ig_A ig s _) as [A|] eqn:EA; simpl in H; [|discriminate].
  destruct (dZ ig wd s _) as [[wd1 dz]|] eqn:ED; simpl in H; [|discriminate].
  destruct (euler_sum _ A dz) as [sm|] eqn:ES; simpl in H; [|discriminate].
  destruct (aop nadd _ sm) as [r|] eqn:ER; simpl in H; [|discriminate].
  destruct (assign _ r) as [y|] eqn:EY; simpl in H; [|discriminate]. injection H as <- <-.
  apply eval_sources_ok in ED. destruct ED as [ED EK].
  exists (ssort (ig_ids ig)), dz, A. split; [split; [apply ssort_sorted; auto | apply ssort_In]|].
  split; auto. split; auto. intros ix HI.
  destruct (euler_sum_ok _ _ _ _ ES ix) as (terms & H1 & H2).
  exists (bget sm ix). split; [exists terms; auto|].
  apply assign_ok in EY. destruct EY as [-> _].
  rewrite (aop_get _ _ _ _ ix ER). f_equal. apply bget_self. auto.
Qed.

Definition next_step (wd : Wd) (t t' : T) (x : buf V) (wd' : Wd) (x' : buf V) : Prop :=
  euler_next tsub ig wd t t' x = Ok (wd', x').

(** the steps of a pass *)
Lemma ref_steps_chain rv tl grid todo : forall i wd inf t x wd' inf' ys,
  ref_steps cb rv tl grid i (wd, inf) t x todo = Ok ((wd', inf'), ys) ->
  exists l, chain next_step wd t x todo wd' l /\ map (fun e => fst (fst e)) l = t :: todo /\ hd_error l = Some (t, x, wd) /\
    Forall2 (fun p y => ig_let ig (fst (fst p)) (snd (fst p)) = Ok y) (filter (fun p => memT (fst (fst p)) tl) (List.tl l)) ys.
Proof using Type.
  induction todo as [|t' todo IH]; intros i wd inf t x wd' inf' ys H; cbn [ref_steps] in H.
  - injection H as <- <- <-. exists [(t, x, wd)]. repeat split; constructor.
  - destruct (cb_next cb _ _ _ _ _) as [[[[wd1 inf1] tt] x1]|] eqn:E1; [|discriminate].
    simpl in E1. unfold sde_next in E1. cbn [fst snd] in E1.
    destruct (euler_next tsub ig wd t t' x) as [[wd1' x1']|] eqn:EN; simpl in E1; [|discriminate].
    destruct (if ig_getinfo ig then _ else _) as [inf1'|] eqn:EI; simpl in E1; [|discriminate].
    injection E1 as <- <- <- <-.
    destruct (memT t' tl) eqn:M.
    + destruct (cb_store cb _ _ _ _ _) as [[[wd2 inf2] y]|] eqn:E2; [|discriminate].
      simpl in E2. unfold sde_store in E2. cbn [fst snd] in E2.
      destruct (ig_let ig t' x1') as [y'|] eqn:EL; simpl in E2; [|discriminate].
      injection E2 as <- <- <-.
      destruct (ref_steps cb rv tl grid (S i) _ t' x1' todo) as [[[wd3 inf3] ys3]|] eqn:ER; [|discriminate].
      injection H as <- <- <-.
      destruct (IH _ _ _ _ _ _ _ _ ER) as (l & H1 & H2 & H3 & H4).
      exists ((t, x, wd) :: l). split; [econstructor; eauto|]. split; [simpl; congruence|]. split; auto.
      simpl. destruct l as [|p l]; [discriminate|]. injection H3 as ->. cbn [filter fst snd].
      rewrite M. constructor; auto.
    + destruct (IH _ _ _ _ _ _ _ _ H) as (l & H1 & H2 & H3 & H4).
      exists ((t, x, wd) :: l). split; [econstructor; eauto|]. split; [simpl; congruence|]. split; auto.
      simpl. destruct l as [|p l]; [discriminate|]. injection H3 as ->. cbn [filter fst snd].
      rewrite M. auto.
Qed.

Lemma Forall2_filter_out {X Y} (lt : T -> X -> res Y) (tl : list T) (l : list (T * X * Wd)) (ys : list Y) :
  Forall2 (fun ti t => teqb ti t = true) tl (map (fun e => fst (fst e)) l) ->
  Forall2 (fun p y => lt (fst (fst p)) (snd (fst p)) = Ok y) l ys ->
  Forall2 (fun ti y => exists t x wd, In (t, x, wd) l /\ teqb ti t = true /\ lt t x = Ok y) tl ys.
Proof using Type.
  revert tl ys. induction l as [|[[t x] wd] l IH]; intros tl ys H1 H2; inversion H2; subst; inversion H1; subst; constructor.
  - exists t, x, wd. simpl; auto.
  - eapply Forall2_imp; [|apply IH; eauto]. intros ti y' (t1 & x1 & w1 & Hi & E & L). exists t1, x1, w1. simpl; auto.
Qed.

Lemma ref_pass_of rv tl grid wd inf wd' inf' ys :
  StronglySorted (before rv) grid -> StronglySorted (before rv) tl -> (forall t, In t tl -> InT t grid) ->
  ref_pass cb rv tl grid (wd, inf) = Ok ((wd', inf'), ys) ->
  pass_of ig next_step tl grid wd wd' ys.
Proof.
  intros S1 S2 HI H. unfold ref_pass in H. destruct grid as [|t todo]; [discriminate|].
  destruct (cb_begin cb _ _ _) as [[[wd1 inf1] xw]|] eqn:EB; [|discriminate].
  simpl in EB. unfold sde_begin in EB. cbn [iv_steps iv_tt] in EB.
  destruct tl as [|t1 tl']; [discriminate|].
  destruct (teqb t t && teqb t t1) eqn:EA; [|discriminate].
  destruct (ig_init ig t) as [x|] eqn:EI; simpl in EB; [|discriminate]. injection EB as <- <- <-.
  set (x0 := if ig_log ig then (fun ix => nlog (x ix)) else x) in *.
  destruct (cb_store cb _ _ _ _ _) as [[[wd2 inf2] y]|] eqn:E2; [|discriminate].
  simpl in E2. unfold sde_store in E2. cbn [fst snd] in E2.
  destruct (ig_let ig t x0) as [y'|] eqn:EL; simpl in E2; [|discriminate]. injection E2 as <- <- <-.
  destruct (ref_steps cb rv _ _ _ _ _ _ _) as [[[wd3 inf3] ys3]|] eqn:ER; [|discriminate].
  destruct (cb_end cb _ _) as [[wd4 inf4]|] eqn:EE; [|discriminate].
  simpl in EE. unfold sde_end in EE. cbn [fst snd] in EE.
  destruct (if ig_getinfo ig then _ else _) as [inf5|] eqn:EF; simpl in EE; [|discriminate].
  injection EE as <- <-. injection H as <- <- <-.
  apply ref_steps_chain in ER. destruct ER as (l & H1 & H2 & H3 & H4).
  exists t, todo, x, l. split; auto. split; auto. split; auto.
  assert (AL := outputs_align rv (t :: todo) (t1 :: tl') S1 S2 HI).
  rewrite <- H2, filter_map_gen in AL.
  destruct l as [|p l]; [discriminate|]. injection H3 as ->. cbn [List.tl] in H4.
  assert (M : memT t (t1 :: tl') = true).
  { apply memT_spec. apply InT_cons. left. apply andb_true_iff in EA. apply EA. }
  cbn [filter fst] in AL. rewrite M in AL.
  eapply Forall2_imp; [|apply (Forall2_filter_out (ig_let ig) _ _ _ AL)].
  - intros ti yy (t2 & x2 & w2 & Hi & E & Hl). exists t2, x2, w2. split; auto.
    destruct Hi as [Hi|Hi]; [left; auto|]. right. apply filter_In in Hi. apply Hi.
  - constructor; auto.
Qed.

Definition fin (y : buf V) : buf V := if ig_log ig then fun ix => nexp (y ix) else y.

Lemma sde_exit_map ys : sde_exit ig (map Some ys) = map Some (map fin ys).
Proof using Type.
  unfold sde_exit, fin. destruct (ig_log ig).
  - rewrite !map_map. apply map_ext. reflexivity.
  - rewrite map_id. auto.
Qed.

(** a call, in terms of the reference recursion *)
Lemma sde_call_ref i0 pace_fn fuel s (timeline : list T) p0 t0 :
  valid_timeline timeline -> start_index (length timeline) i0 p0 -> nth_error timeline p0 = Some t0 ->
  length timeline + length (pace_fn timeline) <= fuel ->
  sde_call tsub ig i0 pace_fn fuel s [length timeline] timeline =
  rmap (fun r => (fst r, map Some (map fin (snd r))))
       (ref_run cb timeline i0 p0 (run_grid true timeline (pace_fn timeline) t0)
                (run_grid false timeline (pace_fn timeline) t0) s).
Proof.
  intros V0 SI N0 HF. unfold sde_call.
  destruct (call_refines_grid cb i0 (ig_getinfo ig) pace_fn fuel s timeline p0 t0 _ _ eq_refl eq_refl
    sde_nonadaptive sde_begin_fills V0 SI N0 HF) as (_ & _ & _ & E).
  destruct (snd (call cb 2 i0 (ig_getinfo ig) pace_fn fuel s [length timeline] timeline)) as [st|e],
    (ref_run cb timeline i0 p0 _ _ s) as [[s' ys]|e']; simpl in *; try discriminate; try congruence.
  injection E as -> ->. rewrite sde_exit_map. reflexivity.
Qed.

Lemma timeline_grid (timeline pc : list T) p0 t0 gb gf :
  valid_timeline timeline -> nth_error timeline p0 = Some t0 ->
  grid_spec true timeline pc t0 gb -> grid_spec false timeline pc t0 gf ->
  (StronglySorted (before true) (rev (firstn (p0 + 1) timeline)) /\
   forall t, In t (rev (firstn (p0 + 1) timeline)) -> InT t gb) /\
  (StronglySorted (before false) (skipn p0 timeline) /\ forall t, In t (skipn p0 timeline) -> InT t gf).
Proof.
  intros (_ & NT & ST) N0 [_ GB] [_ GF].
  assert (exists t1 t2, timeline = t1 ++ t0 :: t2 /\ length t1 = p0) as (t1 & t2 & E & L1).
  { apply nth_error_split in N0. destruct N0 as (t1 & t2 & E & L). eauto. }
  assert (FN : rev (firstn (p0 + 1) timeline) = t0 :: rev t1).
  { rewrite E, firstn_app, L1. replace (p0 + 1 - p0) with 1 by lia.
    rewrite firstn_all2 by lia. simpl. rewrite rev_app_distr. reflexivity. }
  assert (SN : skipn p0 timeline = t0 :: t2).
  { rewrite E, skipn_app, L1, Nat.sub_diag. rewrite skipn_all2 by lia. reflexivity. }
  assert (NUM : forall t, In t timeline -> InT t timeline).
  { intros t Ht. apply InT_In; auto. rewrite Forall_forall in NT; auto. }
  split; split.
  - change true with (negb false). apply SS_rev. apply SS_firstn; auto.
  - intros t Ht. apply GB. assert (In t timeline).
    { apply in_rev in Ht. rewrite <- (firstn_skipn (p0 + 1)). apply in_or_app; auto. }
    split; [left; auto|]. rewrite FN in Ht. rewrite E in NT, ST. destruct Ht as [<-|Ht].
    + left. rewrite Forall_forall in NT. apply NT. apply in_or_app; simpl; auto.
    + right. apply in_rev in Ht. apply SS_app in ST. destruct ST as (_ & _ & ST). apply ST; simpl; auto.
  - apply SS_skipn; auto.
  - intros t Ht. apply GF. assert (In t timeline).
    { rewrite <- (firstn_skipn p0). apply in_or_app; auto. }
    split; [left; auto|]. rewrite SN in Ht. rewrite E in NT, ST. destruct Ht as [<-|Ht].
    + left. rewrite Forall_forall in NT. apply NT. apply in_or_app; simpl; auto.
    + right. apply SS_app in ST. destruct ST as (_ & ST & _). inversion_clear ST as [|? ? _ F].
      rewrite Forall_forall in F. apply F; auto.
Qed.

Lemma pass_of_length step tl grid wd wd' ys : pass_of ig step tl grid wd wd' ys -> length ys = length tl.
Proof using Type. intros (t & todo & x & l & _ & _ & _ & F). clear -F. induction F; simpl; auto. Qed.

Theorem sde_call_run i0 pace_fn fuel wd inf (timeline : list T) p0 t0 wd' inf' xx :
  valid_timeline timeline -> start_index (length timeline) i0 p0 -> nth_error timeline p0 = Some t0 ->
  length timeline + length (pace_fn timeline) <= fuel ->
  sde_call tsub ig i0 pace_fn fuel (wd, inf) [length timeline] timeline = Ok ((wd', inf'), xx) ->
  run_of ig next_step timeline (pace_fn timeline) i0 p0 t0 wd wd' xx.
Proof.
  intros V0 SI N0 HF H. rewrite (sde_call_ref _ _ _ _ _ p0 t0) in H by auto.
  destruct (call_refines_grid cb i0 (ig_getinfo ig) pace_fn fuel (wd, inf) timeline p0 t0 _ _ eq_refl eq_refl
    sde_nonadaptive sde_begin_fills V0 SI N0 HF) as (GB & GF & _ & _).
  set (gb := run_grid true timeline (pace_fn timeline) t0) in *.
  set (gf := run_grid false timeline (pace_fn timeline) t0) in *.
  destruct (timeline_grid _ _ _ _ _ _ V0 N0 GB GF) as [[SB IB] [SF IF]].
  assert (LT : p0 < length timeline) by (apply nth_error_Some; congruence).
  unfold ref_run in H.
  assert (EBK : forall b, b = negb (i0 =? 0)%Z -> if b then goes_back i0 else ~ goes_back i0).
  { intros b ->. unfold goes_back. destruct (Z.eqb_spec i0 0); simpl; lia. }
  assert (EFO : forall b, b = ((i0 =? 0) || negb ((i0 =? -1) || (i0 =? Z.of_nat (length timeline) - 1)))%Z ->
     if b then goes_forth (length timeline) i0 else ~ goes_forth (length timeline) i0).
  { intros b ->. unfold goes_forth.
    destruct (Z.eqb_spec i0 0), (Z.eqb_spec i0 (-1)), (Z.eqb_spec i0 (Z.of_nat (length timeline) - 1)); simpl; lia. }
  specialize (EBK _ eq_refl). specialize (EFO _ eq_refl).
  set (bk := negb (i0 =? 0)%Z) in *.
  set (fo := ((i0 =? 0) || negb ((i0 =? -1) || (i0 =? Z.of_nat (length timeline) - 1)))%Z) in *.
  destruct (if bk then _ else _) as [[[wd1 inf1] yb]|] eqn:EB in H; [|discriminate].
  destruct (if fo then _ else _) as [[[wd2 inf2] yf]|] eqn:EF in H; [|discriminate].
  simpl in H. injection H as <- <- <-.
  assert (PB : goes_back i0 -> pass_of ig next_step (rev (firstn (p0 + 1) timeline)) gb wd wd1 yb).
  { intro HB. destruct bk; [|contradiction]. eapply ref_pass_of; eauto. apply GB. }
  assert (PF : goes_forth (length timeline) i0 -> pass_of ig next_step (skipn p0 timeline) gf wd1 wd2 yf).
  { intro HB. destruct fo; [|contradiction]. eapply ref_pass_of; eauto. apply GF. }
  exists gb, gf, wd1, yb, yf. split; auto. split; auto. split; auto.
  split. { intro HB. destruct bk; [contradiction|]. congruence. }
  split; auto.
  split. { intro HB. destruct fo; [contradiction|]. congruence. }
  assert (LB : goes_back i0 -> length yb = p0 + 1).
  { intro HB. apply PB, pass_of_length in HB. rewrite HB, rev_length, firstn_length. lia. }
  assert (LF : goes_forth (length timeline) i0 -> length yf = length timeline - p0).
  { intro HB. apply PF, pass_of_length in HB. rewrite HB, skipn_length. lia. }
  assert (LB0 : ~ goes_back i0 -> yb = [] /\ p0 = 0).
  { intro HB. destruct bk; [contradiction|]. injection EB as _ _ <-. split; auto.
    unfold goes_back, start_index in *. lia. }
  fold fin.
  assert (LR : goes_forth (length timeline) i0 -> length (rev (List.tl yb)) = p0).
  { intro HB. rewrite rev_length. destruct bk.
    - specialize (LB EBK). destruct yb; simpl in *; lia.
    - destruct (LB0 EBK) as [-> ->]. reflexivity. }
  assert (NB : ~ goes_forth (length timeline) i0 -> goes_back i0 /\ p0 + 1 = length timeline).
  { unfold goes_forth, goes_back, start_index in *. lia. }
  split.
  { rewrite !map_length. destruct fo.
    - rewrite app_length, LR, LF by auto. lia.
    - destruct (NB EFO) as [B1 B2]. rewrite rev_length, LB by auto. lia. }
  cbn zeta. split.
  - intros HB i y Hy. destruct fo; [|contradiction].
    rewrite !map_app, nth_error_app2 by (rewrite !map_length, LR by auto; lia).
    rewrite !map_length, LR by auto. replace (p0 + i - p0) with i by lia.
    rewrite !nth_error_map, Hy. reflexivity.
  - intros HB i y Hy HI. assert (i < length yb) by (apply nth_error_Some; congruence).
    rewrite LB in H by auto. split; [lia|].
    assert (RV : forall (l : list (buf V)) k, k < length l -> nth_error (rev l) k = nth_error l (length l - 1 - k)).
    { clear. intros l k Hk. destruct l as [|a l]; [simpl in Hk; lia|].
      rewrite (nth_error_nth' _ a) by (rewrite rev_length; auto).
      rewrite rev_nth by auto. replace (length (a :: l) - S k) with (length (a :: l) - 1 - k) by lia.
      symmetry. apply nth_error_nth'. lia. }
    destruct fo.
    + destruct HI as [HI|HI]; [|contradiction].
      rewrite !map_app, nth_error_app1 by (rewrite !map_length, LR by auto; lia).
      rewrite !nth_error_map, RV by (rewrite <- rev_length, LR by auto; lia).
      rewrite <- (rev_length (List.tl yb)), LR by auto. replace (p0 - 1 - (p0 - i)) with (i - 1) by lia.
      destruct yb as [|y0 yb]; [simpl in LB; specialize (LB HB); lia|]. destruct i; [lia|].
      simpl in Hy. simpl. rewrite Nat.sub_0_r, Hy. reflexivity.
    + rewrite !nth_error_map, RV by (rewrite LB by auto; lia). rewrite LB by auto.
      replace (p0 + 1 - 1 - (p0 - i)) with i by lia. rewrite Hy. reflexivity.
Qed.

(** weakening the description of steps *)
Lemma chain_imp (st1 st2 : Wd -> T -> T -> buf V -> Wd -> buf V -> Prop) :
  (forall wd t t' x wd' x', st1 wd t t' x wd' x' -> st2 wd t t' x wd' x') ->
  forall wd t x todo wd' l, chain st1 wd t x todo wd' l -> chain st2 wd t x todo wd' l.
Proof using Type. intros H wd t x todo wd' l C. induction C; econstructor; eauto. Qed.

Lemma pass_imp (st1 st2 : Wd -> T -> T -> buf V -> Wd -> buf V -> Prop) :
  (forall wd t t' x wd' x', st1 wd t t' x wd' x' -> st2 wd t t' x wd' x') ->
  forall tl g wd wd' ys, pass_of ig st1 tl g wd wd' ys -> pass_of ig st2 tl g wd wd' ys.
Proof using Type.
  intros H tl g wd wd' ys (t & todo & x & l & H1 & H2 & H3 & H4). exists t, todo, x, l.
  repeat split; auto. eapply chain_imp; eauto.
Qed.

Lemma run_imp (st1 st2 : Wd -> T -> T -> buf V -> Wd -> buf V -> Prop) :
  (forall wd t t' x wd' x', st1 wd t t' x wd' x' -> st2 wd t t' x wd' x') ->
  forall timeline pc i0 p0 t0 wd wd' xx,
  run_of ig st1 timeline pc i0 p0 t0 wd wd' xx -> run_of ig st2 timeline pc i0 p0 t0 wd wd' xx.
Proof using Type.
  intros H tl pc i0 p0 t0 wd wd' xx (gb & gf & wd1 & yb & yf & H1 & H2 & H3 & H4 & H5 & H6 & H7 & H8 & H9).
  exists gb, gf, wd1, yb, yf. split; auto. split; auto.
  split; [intro; eapply pass_imp; eauto|]. split; auto. split; [intro; eapply pass_imp; eauto|]. auto.
Qed.

Theorem sde_call_euler i0 pace_fn fuel wd inf (timeline : list T) p0 t0 wd' inf' xx :
  NoDup (ig_ids ig) ->
  valid_timeline timeline -> start_index (length timeline) i0 p0 -> nth_error timeline p0 = Some t0 ->
  length timeline + length (pace_fn timeline) <= fuel ->
  sde_call tsub ig i0 pace_fn fuel (wd, inf) [length timeline] timeline = Ok ((wd', inf'), xx) ->
  euler_run tsub ig timeline (pace_fn timeline) i0 p0 t0 wd wd' xx.
Proof.
  intros ND V0 SI N0 HF H. apply (sde_call_run _ _ _ _ _ _ p0 t0) in H; auto.
  eapply run_imp; [|exact H]. intros. apply euler_next_step; auto.
Qed.
End L.
