(** Lemmas on histories of evaluations of sources with memory. *)
From Coq Require Import List Arith Bool Lia ZArith Reals Lra Sorted.
From Verif Require Import Base BaseNum BaseArr BaseNd BaseIdx M_process M_source M_true S_process S_source S_true L_nd L_sdes L_process L_process2 L_source L_true.
Import ListNotations.
Local Open Scope R_scope.

Section Histories.
Context {Z B G : Type}.
Variable getvalue : Z -> arr B.
Variable new_outside : Z -> R -> R -> G -> res (Z * Z) * G.
Variable new_inside : Z -> Z -> R -> R -> R -> G -> res (Z * option Z) * G.
Variable rtol : R.
Variable zs : list nat.
Variable sub : B -> B -> B.
Variable d : B.
Local Notation ret := (retrieve1 getvalue new_outside new_inside rtol).
Local Notation hist := (history getvalue new_outside new_inside rtol zs sub d).
Local Notation tcall := (true_call getvalue new_outside new_inside rtol sub d zs).
Local Notation rarr := (retrieve getvalue new_outside new_inside rtol d zs).

(** *** sequences of scalar queries *)
Inductive queries : @memory R Z * G -> @memory R Z * G -> Prop :=
| q_nil st : queries st st
| q_one s st r st1 st2 : ret s st = (r, st1) -> queries st1 st2 -> queries st st2
| q_other m g g' st2 : queries (m, g') st2 -> queries (m, g) st2.
Lemma queries_trans st1 st2 st3 : queries st1 st2 -> queries st2 st3 -> queries st1 st3.
Proof. induction 1; intro Q; auto; [eapply q_one|eapply q_other]; eauto. Qed.
Lemma dbind_state {S A C} (m : S -> res A * S) (f : A -> S -> res C * S) g r g' : dbind m f g = (r, g') ->
  exists o g1, m g = (o, g1) /\ match o with Ok a => f a g1 = (r, g') | Err e => r = Err e /\ g1 = g' end.
Proof. unfold dbind. destruct (m g) as [[a|e] g1]; intro E; eexists; eexists; split; eauto. simpl. injection E as <- <-; auto. Qed.
Ltac destruct_and := repeat match goal with H : _ /\ _ |- _ => destruct H end.
Lemma retrieve_item (s : arr R) i st r st' : dbind (ret (dat s i)) (fun x => dres (broadcast_to x zs)) st = (r, st') -> queries st st'.
Proof.
  intro E. apply dbind_state in E. destruct E as (o & g1 & E1 & E2). eapply q_one; [exact E1|]. destruct o; [unfold dres in E2; injection E2 as _ <-|destruct_and; subst]; constructor.
Qed.
Lemma each_queries {I C} (f : I -> _ -> res C * _) l : (forall i st r st', f i st = (r, st') -> queries st st') -> forall st r st', each f l st = (r, st') -> queries st st'.
Proof.
  intro H. induction l as [|i l IH]; intros st r st' E; cbn [each] in E; [unfold dret in E; injection E as _ <-; constructor|].
  apply dbind_state in E. destruct E as (o & st1 & E1 & E2). eapply queries_trans; [eapply H; eauto|]. destruct o as [b|e]; [|destruct_and; subst; constructor].
  apply dbind_state in E2. destruct E2 as (o2 & st2 & E2 & E3). eapply queries_trans; [eapply IH; eauto|]. destruct o2; [unfold dret in E3; injection E3 as _ <-|destruct_and; subst]; constructor.
Qed.
Lemma retrieve_queries s st r st' : rarr s st = (r, st') -> queries st st'.
Proof.
  intro E. apply dbind_state in E. destruct E as (o & st1 & E1 & E2). eapply queries_trans; [eapply each_queries; [|exact E1]|].
  - intros i st2 r2 st3 E. exact (retrieve_item s i st2 r2 st3 E).
  - destruct o; [unfold dret in E2; injection E2 as _ <-|destruct_and; subst]; constructor.
Qed.
Lemma call_queries t dt st r st' : tcall t dt st = (r, st') -> queries st st'.
Proof.
  unfold true_call. destruct dt as [dt|]; [|apply retrieve_queries]. intro E.
  apply dbind_state in E. destruct E as (o & st1 & E1 & E2). unfold dres in E1. injection E1 as <- <-. destruct (broadcast2 t dt) as [[t1 dt1]|e]; [|destruct_and; subst; constructor].
  apply dbind_state in E2. destruct E2 as (o & st1 & E1 & E2). unfold dres in E1. injection E1 as <- <-. destruct (aop Rplus t1 dt1) as [s|e]; [|destruct_and; subst; constructor].
  apply dbind_state in E2. destruct E2 as (o & st1 & E1 & E2). eapply queries_trans; [eapply retrieve_queries; eauto|]. destruct o as [x|e]; [|destruct_and; subst; constructor].
  apply dbind_state in E2. destruct E2 as (o & st2 & E3 & E4). eapply queries_trans; [eapply retrieve_queries; eauto|]. destruct o; [unfold dres in E4; injection E4 as _ <-|destruct_and; subst]; constructor.
Qed.
Lemma history_queries st st' : hist st st' -> queries st st'.
Proof.
  induction 1 as [|t dt st r st1 st2 E H IH|key t dt st r st1 st2 E H IH|m g g' st2 H IH].
  - constructor.
  - eapply queries_trans; [eapply call_queries; eauto|auto].
  - unfold indexed_call in E. apply dbind_state in E. destruct E as (o & st3 & E1 & E2). eapply queries_trans; [eapply call_queries; eauto|]. destruct o; [unfold dres in E2; injection E2 as _ <-|destruct_and; subst]; auto.
  - eapply q_other; eauto.
Qed.
Lemma history_trans st1 st2 st3 : hist st1 st2 -> hist st2 st3 -> hist st1 st3.
Proof. induction 1; intro Q; auto; [eapply h_call|eapply h_index|eapply h_other]; eauto. Qed.

(** *** invariants *)
Variable same : arr B -> arr B -> Prop.
Hypothesis Dis : disciplined getvalue new_outside new_inside zs same.
Hypothesis rtol_pos : 0 <= rtol.
Local Notation wf := (wf getvalue zs).
Local Notation settled := (settled getvalue rtol same).
Lemma queries_wf st st' : queries st st' -> wf (fst st) -> wf (fst st').
Proof. induction 1 as [|s [m g] r [m1 g1] st2 E H IH|m g g' st2 H IH]; intro W; auto. apply IH. eapply query_wf; eauto. Qed.
Lemma queries_settled st st' s v : queries st st' -> wf (fst st) -> settled (fst st) s v -> settled (fst st') s v.
Proof. induction 1 as [|s' [m g] r [m1 g1] st2 E H IH|m g g' st2 H IH]; intros W S; auto. apply IH; [eapply query_wf|eapply settled_step]; eauto. Qed.
Lemma in_alike m m' t z : alike getvalue m m' -> In (t, z) m -> exists z', In (t, z') m' /\ getvalue z' = getvalue z.
Proof. intro A. induction A as [|p [tq zq] l l' [E1 E2] A IH]; [intros []|]. intros [->|I]; [cbn [fst snd] in *; subst; exists zq; simpl; auto|]. destruct (IH I) as (z' & I' & Q). exists z'. simpl; auto. Qed.
Lemma queries_in st st' t z : queries st st' -> wf (fst st) -> In (t, z) (fst st) -> exists z', In (t, z') (fst st') /\ getvalue z' = getvalue z.
Proof.
  intro H. revert z. induction H as [|s' [m g] r [m1 g1] st2 E H IH|m g g' st2 H IH]; intros z W I; eauto. cbn [fst] in *.
  assert (X : exists z', In (t, z') m1 /\ getvalue z' = getvalue z).
  { destruct (query_step getvalue new_outside new_inside rtol zs same Dis rtol_pos _ _ _ _ _ _ W E) as [A|(zn & (l & r' & l' & r2 & -> & -> & A1 & A2 & _) & _)]; [eapply in_alike; eauto|].
    apply in_app_or in I. destruct I as [I|I]; [destruct (in_alike _ _ _ _ A1 I) as (z' & I' & Q)|destruct (in_alike _ _ _ _ A2 I) as (z' & I' & Q)]; exists z'; split; auto; apply in_or_app; simpl; auto. }
  destruct X as (z' & I' & Q). destruct (IH z' (query_wf getvalue new_outside new_inside rtol zs same Dis rtol_pos _ _ _ _ _ _ W E) I') as (z2 & I2 & Q2). exists z2. split; auto. congruence.
Qed.
(** a stored time is settled *)
Lemma stored_settled m t z : wf m -> In (t, z) m -> settled m t (getvalue z).
Proof.
  intros (N & S & F) I. apply in_split in I. destruct I as (l1 & l2 & ->). destruct (sorted_app_cons _ _ _ _ S) as [_ F2]. exists l1, t, z, l2. split; auto. split; [lra|]. split; auto. left. split; [apply close_refl; auto|apply aeq_refl].
Qed.
Lemma calm_not_fickle t0 m s : calm rtol t0 -> wf m -> In t0 (map fst m) -> ~ fickle rtol m s.
Proof.
  intros C (N & S & _) I [F (t & z & L & Cl)]. destruct (memory_snoc m N) as (l & [tl zl] & ->). rewrite map_app in L. cbn [map] in L. rewrite last_last in L. injection L as -> ->. unfold close in Cl.
  assert (L1 : s < t) by (apply (F t z); apply in_or_app; simpl; auto). rewrite Rabs_left in Cl by lra. destruct C as [->|[-> C]]; [lra|].
  assert (T0 : 0 <= t). { rewrite map_app in I. cbn [map fst] in I. apply in_app_or in I. destruct I as [I|[I|[]]]; [|lra]. apply in_map_iff in I. destruct I as ([t1 z1] & E & I). cbn [fst] in E. subst t1. destruct (sorted_app_cons l t z [] S) as [F1 _]. rewrite Forall_forall in F1. specialize (F1 _ I). cbn [fst] in F1. lra. }
  assert (S0 : s < 0). { apply in_map_iff in I. destruct I as ([t1 z1] & E & I). cbn [fst] in E. subst t1. apply (F _ _ I). }
  rewrite Rabs_right in Cl by lra. assert (rtol * t <= 1 * t) by (apply Rmult_le_compat_r; lra). lra.
Qed.

(** *** evaluations *)
Lemma broadcast_shape (v : arr B) : shp v = zs -> exists x, broadcast_to v zs = Ok x /\ aeq x v.
Proof.
  intro E. unfold broadcast_to. rewrite E, can_refl. eexists. split; [reflexivity|]. split; cbn [shp dat]; auto. intros ix I. apply bget_self. rewrite E; auto.
Qed.
Lemma settled_shape m s v : wf m -> settled m s v -> shp v = zs.
Proof.
  intros (_ & _ & F) (l1 & tk & zk & l2 & -> & _ & _ & C). apply Forall_app in F. destruct F as [_ F]. destruct C as [[_ [E _]]|(t2 & z2 & l3 & -> & _ & [E _])].
  - apply Forall_inv in F. cbn [snd] in F. congruence.
  - apply Forall_inv_tail, Forall_inv in F. cbn [snd] in F. congruence.
Qed.
(** a scalar evaluation *)
Lemma retrieve_scalar s st r st' : rarr (ascalar s) st = (r, st') ->
  exists o, ret s st = (o, st') /\ match o with
    | Ok v => match broadcast_to v zs with Ok x => exists y, r = Ok y /\ shp y = zs /\ forall ix, dat y ix = bget x ix | Err e => r = Err e end
    | Err e => r = Err e
    end.
Proof.
  unfold retrieve. cbn [ascalar shp ndindex each]. intro E. apply dbind_state in E. destruct E as (o & st1 & E1 & E2).
  apply dbind_state in E1. destruct E1 as (o1 & st2 & E1 & E3). apply dbind_state in E1. destruct E1 as (o2 & st3 & E1 & E4). exists o2. destruct o2 as [v|e].
  - unfold dres in E4. injection E4 as <- <-. destruct (broadcast_to v zs) as [x|e] eqn:Eb.
    + unfold dbind, dret in E3. injection E3 as <- <-. unfold dret in E2. injection E2 as <- <-. split; auto. eexists. split; [reflexivity|]. split; [reflexivity|]. intros ix. cbn. reflexivity.
    + destruct E3 as [-> ->]. destruct E2 as [-> ->]. auto.
  - destruct E4 as [-> ->]. destruct E3 as [-> ->]. destruct E2 as [-> ->]. auto.
Qed.
Definition at_entry (x : arr B) (i : list nat) : arr B := mkArr zs (fun jx => dat x (i ++ jx)).
Lemma settled_aeq m s v v' : settled m s v -> aeq v v' -> settled m s v'.
Proof.
  intros (l1 & tk & zk & l2 & E & L & F & C) A. exists l1, tk, zk, l2. split; auto. split; auto. split; auto. destruct C as [[C1 C2]|(t2 & z2 & l3 & C1 & C2 & C3)]; [left|right; exists t2, z2, l3]; repeat split; auto; try (eapply aeq_trans; eauto).
Qed.
Lemma bget_zs (x : arr B) jx : shp x = zs -> inb zs jx -> bget x jx = dat x jx.
Proof. intros E I. apply bget_self. rewrite E; auto. Qed.
Lemma at_entry_nil (x : arr B) : shp x = zs -> aeq (at_entry x []) x.
Proof. intro E. split; cbn; auto. Qed.
Variable t0 : R.
Hypothesis Calm : calm rtol t0.
Definition good (st : @memory R Z * G) : Prop := wf (fst st) /\ In t0 (map fst (fst st)).
Lemma good_queries st st' : queries st st' -> good st -> good st'.
Proof.
  intros Q [W I]. split; [eapply queries_wf; eauto|]. apply in_map_iff in I. destruct I as ([t z] & E & I). cbn [fst] in E. subst t. destruct (queries_in _ _ _ _ Q W I) as (z' & I' & _). apply (in_map fst _ _ I').
Qed.
(** retrieval of an array: all its times are settled *)
Lemma retrieve_settles t st x st' : good st -> rarr t st = (Ok x, st') ->
  good st' /\ shp x = shp t ++ zs /\ forall i, inb (shp t) i -> settled (fst st') (dat t i) (at_entry x i).
Proof.
  intros Gd E. assert (Gd' := good_queries _ _ (retrieve_queries _ _ _ _ E) Gd). split; auto. unfold retrieve in E. apply dbind_ok in E. destruct E as (l & st1 & E & E2). apply dret_ok in E2. destruct E2 as [-> ->]. split; [reflexivity|]. intros i I.
  apply each_threaded in E. assert (F := threaded_fst _ _ _ _ _ E). destruct (assembled_entry d (shp t) zs l i [] F I) as (a & Ia & _).
  assert (X : settled (fst st1) (dat t i) a /\ shp a = zs).
  { clear F I Gd'. revert Gd a Ia. induction E as [g|i' l' st b st2 r st3 E1 T IH]; intros Gd a Ia; [destruct Ia|]. assert (Q := retrieve_item _ _ _ _ _ E1). assert (Gd2 := good_queries _ _ Q Gd). destruct Ia as [Ia|Ia]; [|apply IH; auto].
    injection Ia as -> ->. apply dbind_ok in E1. destruct E1 as (v & st4 & E1 & E3). apply dres_ok in E3. destruct E3 as [E3 E4]; subst st4. destruct st as [m g], st2 as [m4 g4]. destruct Gd as [W I0]. cbn [fst] in *.
    assert (Sv := query_shape getvalue new_outside new_inside rtol zs same Dis _ _ _ _ _ _ W E1). destruct (broadcast_shape v Sv) as (x & Ex & Ax). assert (x = a) by congruence. subst x. split; [|destruct Ax; congruence].
    assert (Q2 : queries (m4, g4) st3). { eapply each_queries; [|apply each_threaded; exact T]. intros j st5 r5 st6 E5. exact (retrieve_item t j _ _ _ E5). }
    apply (queries_settled _ _ _ _ Q2); [apply Gd2|]. eapply settled_aeq; [|apply aeq_sym; exact Ax]. eapply answer_settled; [exact Dis|auto| |exact (calm_not_fickle t0 m (dat t i) Calm W I0)|exact E1]. auto. }
  destruct X as [X Sa]. eapply settled_aeq; [exact X|]. split; [exact Sa|]. intros jx J. cbn [at_entry dat]. rewrite Sa in J.
  assert (Y := assembled_entry d (shp t) zs l i jx F I). destruct Y as (a' & Ia' & Ey). rewrite Ey. assert (a' = a).
  { assert (ND : NoDup (map fst l)) by (rewrite F; apply NoDup_ndindex). pose proof (find_fst l i a ND Ia) as Q1. pose proof (find_fst l i a' ND Ia') as Q2. congruence. }
  subst a'. symmetry. apply bget_zs; auto.
Qed.
Lemma settled_retrieve t (v : list nat -> arr B) m g : wf m -> (forall i, inb (shp t) i -> settled m (dat t i) (v i)) ->
  exists x, rarr t (m, g) = (Ok x, (m, g)) /\ shp x = shp t ++ zs /\ forall i jx, inb (shp t) i -> inb zs jx -> dat x (i ++ jx) = dat (v i) jx.
Proof.
  intros W H. assert (X : exists l, threaded (fun i => dbind (ret (dat t i)) (fun x => dres (broadcast_to x zs))) (ndindex (shp t)) (m, g) l (m, g) /\ forall i a, In (i, a) l -> aeq a (v i)).
  { assert (H' : forall i, In i (ndindex (shp t)) -> settled m (dat t i) (v i)) by (intros i I; apply H, in_ndindex; auto). clear H. induction (ndindex (shp t)) as [|i l IH]; [exists []; split; [constructor|intros ? ? []]|].
    destruct (IH (fun j J => H' j (or_intror J))) as (r & T & Ar). destruct (settled_answer getvalue new_outside new_inside rtol zs same Dis m (dat t i) (v i) g W (H' i (or_introl eq_refl))) as (u & Eu & Au).
    assert (Su : shp u = zs) by (destruct Au as [-> _]; eapply settled_shape; [exact W|apply H'; simpl; eauto]). destruct (broadcast_shape u Su) as (x & Ex & Ax).
    exists ((i, x) :: r). split.
    - econstructor; [|exact T]. apply dbind_ok. exists u, (m, g). split; auto. apply dres_ok. auto.
    - intros j a [E|J]; [injection E as <- <-; eapply aeq_trans; eauto|auto]. }
  destruct X as (l & T & Al). eexists. split; [apply dbind_ok; exists l, (m, g); split; [apply each_threaded; exact T|apply dret_ok; split; reflexivity]|]. split; [reflexivity|].
  intros i jx I J. destruct (assembled_entry d (shp t) zs l i jx (threaded_fst _ _ _ _ _ T) I) as (a & Ia & ->). destruct (Al _ _ Ia) as [E1 E2]. assert (Sv : shp (v i) = zs) by (eapply settled_shape; eauto).
  rewrite bget_zs by (congruence || auto). apply E2. rewrite E1, Sv. auto.
Qed.
(** evaluation with dt *)
Lemma call_settles t dt st x st' : good st -> tcall t (Some dt) st = (Ok x, st') ->
  exists w, bshape (shp t) (shp dt) = Some w /\ good st' /\ shp x = w ++ zs /\ exists xs xt,
    forall i, inb w i -> settled (fst st') (bget t i + bget dt i) (at_entry xs i) /\ settled (fst st') (bget t i) (at_entry xt i) /\
      forall jx, inb zs jx -> dat x (i ++ jx) = sub (dat xs (i ++ jx)) (dat xt (i ++ jx)).
Proof.
  intros Gd E. unfold true_call in E. apply dbind_ok in E. destruct E as ([t1 dt1] & st1 & E1 & E). apply dres_ok in E1. destruct E1 as [E1 ->]. unfold broadcast2 in E1. destruct (bshape (shp t) (shp dt)) as [w|] eqn:Bs; [|discriminate]. injection E1 as <- <-.
  apply dbind_ok in E. destruct E as (s & st1 & E1 & E). apply dres_ok in E1. destruct E1 as [E1 ->]. unfold aop in E1. cbn [shp dat] in E1. rewrite (bshape_can_l w w (can_refl w)) in E1. injection E1 as <-.
  apply dbind_ok in E. destruct E as (xs & st1 & E1 & E). apply dbind_ok in E. destruct E as (xt & st2 & E2 & E). apply dres_ok in E. destruct E as [E ->].
  destruct (retrieve_settles _ _ _ _ Gd E1) as (Gd1 & Sx & Hx). destruct (retrieve_settles _ _ _ _ Gd1 E2) as (Gd2 & Sy & Hy). cbn [shp dat] in *.
  unfold aop in E. rewrite Sx, Sy, (bshape_can_l _ _ (can_refl _)) in E. injection E as <-. exists w. split; auto. split; auto. split; auto. exists xs, xt. intros i I. split; [|split].
  - specialize (Hx i I). rewrite bidx_id in Hx by auto. apply (queries_settled _ _ _ _ (retrieve_queries _ _ _ _ E2)); [apply Gd1|]. exact Hx.
  - apply Hy; auto.
  - intros jx J. cbn [dat]. unfold bget. rewrite Sx, Sy. rewrite bidx_id by (apply Forall2_app; assumption). reflexivity.
Qed.
Lemma settled_call t dt w (vs vt : list nat -> arr B) m g : wf m -> bshape (shp t) (shp dt) = Some w ->
  (forall i, inb w i -> settled m (bget t i + bget dt i) (vs i) /\ settled m (bget t i) (vt i)) ->
  exists x, tcall t (Some dt) (m, g) = (Ok x, (m, g)) /\ shp x = w ++ zs /\ forall i jx, inb w i -> inb zs jx -> dat x (i ++ jx) = sub (dat (vs i) jx) (dat (vt i) jx).
Proof.
  intros W Bs H. unfold true_call, broadcast2. rewrite Bs. unfold dbind at 1. cbn [dres]. unfold aop at 1. cbn [shp dat]. rewrite (bshape_can_l w w (can_refl w)). unfold dbind at 1. cbn [dres].
  set (s := mkArr w _). destruct (settled_retrieve s vs m g W) as (x & E1 & S1 & H1).
  { intros i I. cbn [s shp dat] in *. unfold s. cbn [dat]. rewrite !bget_self by (cbn [shp]; assumption). cbn [dat]. apply H; auto. }
  destruct (settled_retrieve (mkArr w (bget t)) vt m g W) as (y & E2 & S2 & H2).
  { intros i I. cbn [shp dat] in *. apply H; auto. }
  unfold dbind at 1. rewrite E1. unfold dbind. rewrite E2. unfold dres, aop. cbn [s shp] in *. rewrite S1, S2, (bshape_can_l _ _ (can_refl _)). eexists. split; [reflexivity|]. cbn [shp dat]. split; auto.
  intros i jx I J. unfold bget. rewrite S1, S2, bidx_id by (apply Forall2_app; assumption). rewrite H1, H2 by auto. reflexivity.
Qed.
End Histories.
