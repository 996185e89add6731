(** C18-C20: memory of sources with memory. *)
From Coq Require Import List Arith Bool Lia ZArith Reals Lra Sorted.
From Verif Require Import Base BaseNum BaseArr BaseNd BaseIdx M_process M_source M_true S_process S_source S_mc S_true L_nd L_sdes L_process L_process2 L_source L_true L_true2 L_true3.
Import ListNotations.
Local Open Scope R_scope.

Section Memory.
Context {Z B G : Type}.
Variable getvalue : Z -> arr B.
Variable new_outside : Z -> R -> R -> G -> res (Z * Z) * G.
Variable new_inside : Z -> Z -> R -> R -> R -> G -> res (Z * option Z) * G.
Variable rtol : R.
Variable zs : list nat.
Variable sub : B -> B -> B.
Variable d : B.
Variable same : arr B -> arr B -> Prop.
Hypothesis Dis : disciplined getvalue new_outside new_inside zs same.
Hypothesis rtol_pos : 0 <= rtol.
Variable stored : arr B -> Z.
Hypothesis Stored : forall x, getvalue (stored x) = x.
Variables (t0 : R) (z0 : arr B) (m0 : list (R * Z)) (g0 : G).
Hypothesis Start : true_new stored zs t0 z0 = Ok m0.
Local Notation hist := (history getvalue new_outside new_inside rtol zs sub d).
Local Notation eval := (true_call getvalue new_outside new_inside rtol sub d zs).

Lemma start_state : m0 = [(t0, stored (mkArr zs (bget z0)))] /\ wf getvalue zs m0.
Proof using Start Stored.
  clear Dis. unfold true_new, broadcast_to in Start. destruct (can (shp z0) zs); [|discriminate]. cbv beta iota delta [rbind] in Start. injection Start as <-. split; auto.
  split; [discriminate|]. split; [repeat constructor|]. constructor; [|constructor]. cbn [snd]. rewrite Stored. reflexivity.
Qed.
Lemma hist_state m g : hist (m0, g0) (m, g) -> wf getvalue zs m /\ exists z, In (t0, z) m /\ getvalue z = mkArr zs (bget z0).
Proof using Dis rtol_pos Start Stored.
  intro H. apply history_queries in H. destruct start_state as [E W]. split; [apply (queries_wf _ _ _ _ _ _ Dis rtol_pos _ _ H W)|].
  destruct (queries_in _ _ _ _ _ _ Dis rtol_pos _ _ t0 (stored (mkArr zs (bget z0))) H W) as (z & I & Q); [rewrite E; simpl; auto|]. exists z. split; auto. rewrite Q; auto.
Qed.
Lemma scalar_eval s st r st' : eval (ascalar s) None st = (r, st') -> forall m g, st = (m, g) -> wf getvalue zs m ->
  (exists e, r = Err e) \/ exists y v, r = Ok y /\ retrieve1 getvalue new_outside new_inside rtol s st = (Ok v, st') /\ aeq y v.
Proof using Dis.
  intros E m g -> W. unfold true_call in E. destruct (retrieve_scalar _ _ _ _ _ _ _ _ _ _ E) as (o & E1 & H). destruct o as [v|e]; [|eauto]. destruct st' as [m' g'].
  assert (Sv := query_shape getvalue new_outside new_inside rtol zs same Dis _ _ _ _ _ _ W E1). destruct (broadcast_shape zs v Sv) as (x & Ex & Ax). rewrite Ex in H. destruct H as (y & -> & Sy & Hy). right. exists y, v. split; auto. split; auto.
  eapply aeq_trans; [|exact Ax]. split; [destruct Ax; congruence|]. intros ix I. rewrite Hy. apply bget_self. destruct Ax. congruence.
Qed.

(** *** C18 *)
(** a value returned for a time that is not fickle is returned forever, and nothing new is generated for it *)
Theorem C18_same_value m g s x st1 st2 : hist (m0, g0) (m, g) -> ~ fickle rtol m s -> eval (ascalar s) None (m, g) = (Ok x, st1) -> hist st1 st2 ->
  exists y, eval (ascalar s) None st2 = (Ok y, st2) /\ aeq y x.
Proof using Dis rtol_pos Start Stored.
  intros H NF E H'. destruct (hist_state m g H) as [W _]. destruct (scalar_eval _ _ _ _ E m g eq_refl W) as [[e X]|(y & v & X & E1 & A)]; [discriminate|]. injection X as <-. destruct st1 as [m1 g1].
  assert (S1 := answer_settled getvalue new_outside new_inside rtol zs same Dis rtol_pos _ _ _ _ _ _ W NF E1). assert (W1 := query_wf getvalue new_outside new_inside rtol zs same Dis rtol_pos _ _ _ _ _ _ W E1).
  assert (Q := history_queries _ _ _ _ _ _ _ _ _ H'). assert (S2 := queries_settled _ _ _ _ _ _ Dis rtol_pos _ _ _ _ Q W1 S1). assert (W2 := queries_wf _ _ _ _ _ _ Dis rtol_pos _ _ Q W1). destruct st2 as [m2 g2]. cbn [fst] in *.
  destruct (settled_retrieve getvalue new_outside new_inside rtol zs d same Dis (ascalar s) (fun _ => v) m2 g2 W2) as (u & Eu & Su & Hu); [intros; exact S2|]. exists u. split; auto.
  eapply aeq_trans; [|apply aeq_sym; exact A]. split; [rewrite Su; symmetry; eapply settled_shape; eauto|]. intros ix I. rewrite Su in I. apply (Hu [] ix); auto. constructor.
Qed.
(** this is always so if rtol = 0, or if t0 = 0 and rtol < 1 *)
Theorem C18_calm m g s : hist (m0, g0) (m, g) -> calm rtol t0 -> ~ fickle rtol m s.
Proof using Dis rtol_pos Start Stored.
  intros H C. destruct (hist_state m g H) as [W (z & I & _)]. eapply calm_not_fickle; eauto. apply (in_map fst _ _ I).
Qed.
(** the value at t0 is z0 *)
Theorem C18_initial m g : hist (m0, g0) (m, g) -> exists y, eval (ascalar t0) None (m, g) = (Ok y, (m, g)) /\ shp y = zs /\ forall ix, inb zs ix -> dat y ix = bget z0 ix.
Proof using Dis rtol_pos Start Stored.
  intros H. destruct (hist_state m g H) as [W (z & I & Ez)]. assert (S := stored_settled getvalue rtol zs same rtol_pos m t0 z W I). rewrite Ez in S.
  destruct (settled_retrieve getvalue new_outside new_inside rtol zs d same Dis (ascalar t0) (fun _ => mkArr zs (bget z0)) m g W) as (u & Eu & Su & Hu); [intros; exact S|]. exists u. split; auto. split; auto. intros ix J. apply (Hu [] ix); auto. constructor.
Qed.
(** stored times are strictly increasing; they are never dropped, nor their values changed *)
Theorem C18_increasing m g : hist (m0, g0) (m, g) -> increasing (stored_times m) /\ In t0 (stored_times m).
Proof using Dis rtol_pos Start Stored.
  intros H. destruct (hist_state m g H) as [(_ & S & _) (z & I & _)]. split; [|apply (in_map fst _ _ I)]. unfold stored_times. clear I. induction S as [|a l S IH F]; intros i j L1 L2; [simpl in L2; lia|].
  destruct j as [|j]; [lia|]. cbn [List.length] in L2. destruct i as [|i]; cbn [nth]; [|apply IH; lia]. rewrite Forall_forall in F. apply F. apply nth_In. lia.
Qed.
Theorem C18_kept m g m' g' t z : hist (m0, g0) (m, g) -> hist (m, g) (m', g') -> In (t, z) m -> exists z', In (t, z') m' /\ getvalue z' = getvalue z.
Proof using Dis rtol_pos Start Stored.
  intros H H' I. destruct (hist_state m g H) as [W _]. apply (queries_in _ _ _ _ _ _ Dis rtol_pos _ _ t z (history_queries _ _ _ _ _ _ _ _ _ H') W I).
Qed.

(** *** C19 *)
Lemma good_hist m g : hist (m0, g0) (m, g) -> good getvalue zs t0 (m, g).
Proof using Dis rtol_pos Start Stored. intro H. destruct (hist_state m g H) as [W (z & I & _)]. split; auto. apply (in_map fst _ _ I). Qed.
Hypothesis Calm : calm rtol t0.
(** array arguments: element by element, the values of scalar evaluations *)
Theorem C19_elements t m g x st1 st2 : hist (m0, g0) (m, g) -> eval t None (m, g) = (Ok x, st1) -> hist st1 st2 ->
  shp x = shp t ++ zs /\ forall i, inb (shp t) i -> exists y, eval (ascalar (dat t i)) None st2 = (Ok y, st2) /\ shp y = zs /\ forall jx, inb zs jx -> dat y jx = dat x (i ++ jx).
Proof using Dis rtol_pos Start Stored Calm.
  intros H E H'. destruct (retrieve_settles _ _ _ _ _ _ _ Dis rtol_pos t0 Calm _ _ _ _ (good_hist m g H) E) as (Gd & Sx & Hx). split; auto. intros i I. specialize (Hx i I).
  assert (Q := history_queries _ _ _ _ _ _ _ _ _ H'). assert (S2 := queries_settled _ _ _ _ _ _ Dis rtol_pos _ _ _ _ Q (proj1 Gd) Hx). assert (W2 := queries_wf _ _ _ _ _ _ Dis rtol_pos _ _ Q (proj1 Gd)). destruct st2 as [m2 g2]. cbn [fst] in *.
  destruct (settled_retrieve getvalue new_outside new_inside rtol zs d same Dis (ascalar (dat t i)) (fun _ => at_entry zs x i) m2 g2 W2) as (u & Eu & Su & Hu); [intros; exact S2|]. exists u. split; auto. split; auto. intros jx J. apply (Hu [] jx); auto. constructor.
Qed.
(** dz(t, dt) is dz(t + dt) - dz(t), element by element *)
Theorem C19_difference t dt m g x st1 st2 : hist (m0, g0) (m, g) -> eval t (Some dt) (m, g) = (Ok x, st1) -> hist st1 st2 ->
  exists w, bshape (shp t) (shp dt) = Some w /\ shp x = w ++ zs /\ forall i, inb w i -> exists y1 y0,
    eval (ascalar (bget t i + bget dt i)) None st2 = (Ok y1, st2) /\ eval (ascalar (bget t i)) None st2 = (Ok y0, st2) /\ shp y1 = zs /\ shp y0 = zs /\
    forall jx, inb zs jx -> dat x (i ++ jx) = sub (dat y1 jx) (dat y0 jx).
Proof using Dis rtol_pos Start Stored Calm.
  intros H E H'. destruct (call_settles _ _ _ _ _ _ _ _ Dis rtol_pos t0 Calm _ _ _ _ _ (good_hist m g H) E) as (w & Bs & Gd & Sx & xs & xt & Hx). exists w. split; auto. split; auto. intros i I. destruct (Hx i I) as (S1 & S0 & D).
  assert (Q := history_queries _ _ _ _ _ _ _ _ _ H'). assert (S1' := queries_settled _ _ _ _ _ _ Dis rtol_pos _ _ _ _ Q (proj1 Gd) S1). assert (S0' := queries_settled _ _ _ _ _ _ Dis rtol_pos _ _ _ _ Q (proj1 Gd) S0). assert (W2 := queries_wf _ _ _ _ _ _ Dis rtol_pos _ _ Q (proj1 Gd)). destruct st2 as [m2 g2]. cbn [fst] in *.
  destruct (settled_retrieve getvalue new_outside new_inside rtol zs d same Dis (ascalar (bget t i + bget dt i)) (fun _ => at_entry zs xs i) m2 g2 W2) as (u & Eu & Su & Hu); [intros; exact S1'|].
  destruct (settled_retrieve getvalue new_outside new_inside rtol zs d same Dis (ascalar (bget t i)) (fun _ => at_entry zs xt i) m2 g2 W2) as (v & Ev & Sv & Hv); [intros; exact S0'|].
  exists u, v. repeat (split; auto). intros jx J. pose proof (Hu [] jx ltac:(constructor) J) as Xu. pose proof (Hv [] jx ltac:(constructor) J) as Xv. cbn [app at_entry dat] in Xu, Xv. rewrite Xu, Xv. apply D; auto.
Qed.
(** increments over adjacent intervals add up, whatever is evaluated meanwhile *)
Theorem C19_additive (add : B -> B -> B) (t a b : R) m1 g1 x st1 m2 g2 y st2 m3 g3 z st3 :
  (forall u v w, add (sub v u) (sub w v) = sub w u) ->
  hist (m0, g0) (m1, g1) -> eval (ascalar t) (Some (ascalar a)) (m1, g1) = (Ok x, st1) ->
  hist st1 (m2, g2) -> eval (ascalar (t + a)) (Some (ascalar b)) (m2, g2) = (Ok y, st2) ->
  hist st2 (m3, g3) -> eval (ascalar t) (Some (ascalar (a + b))) (m3, g3) = (Ok z, st3) ->
  shp x = zs /\ shp y = zs /\ shp z = zs /\ forall jx, inb zs jx -> add (dat x jx) (dat y jx) = dat z jx.
Proof using Dis rtol_pos Start Stored Calm.
  intros Add H1 E1 H2 E2 H3 E3. assert (H12 : hist (m0, g0) (m2, g2)) by (eapply history_trans; [exact H1|]; eapply h_call; [exact E1|exact H2]). assert (H13 : hist (m0, g0) (m3, g3)) by (eapply history_trans; [exact H12|]; eapply h_call; [exact E2|exact H3]).
  assert (P1 : hist st1 st3) by (eapply history_trans; [exact H2|]; eapply h_call; [exact E2|]; eapply history_trans; [exact H3|]; eapply h_call; [exact E3|constructor]).
  assert (P2 : hist st2 st3) by (eapply history_trans; [exact H3|]; eapply h_call; [exact E3|constructor]).
  destruct (C19_difference _ _ _ _ _ _ st3 H1 E1 P1) as (w1 & B1 & S1 & D1). destruct (C19_difference _ _ _ _ _ _ st3 H12 E2 P2) as (w2 & B2 & S2 & D2). destruct (C19_difference _ _ _ _ _ _ st3 H13 E3 (h_nil _ _ _ _ _ _ _ _)) as (w3 & B3 & S3 & D3).
  cbn in B1, B2, B3. injection B1 as <-. injection B2 as <-. injection B3 as <-. split; auto. split; auto. split; auto. intros jx J.
  destruct (D1 [] ltac:(constructor)) as (x1 & x0 & Ex1 & Ex0 & Sx1 & Sx0 & Dx). destruct (D2 [] ltac:(constructor)) as (y1 & y0 & Ey1 & Ey0 & Sy1 & Sy0 & Dy). destruct (D3 [] ltac:(constructor)) as (u1 & u0 & Eu1 & Eu0 & Su1 & Su0 & Du).
  unfold bget in *. cbn [ascalar shp dat bidx rev bixr app] in *. replace (t + (a + b)) with (t + a + b) in Eu1 by ring. assert (x0 = u0) by congruence. assert (y0 = x1) by congruence. assert (y1 = u1) by congruence. subst.
  rewrite Dx, Dy, Du by auto. apply Add.
Qed.
(** the same evaluation repeated gives the same result *)
Theorem C19_repeated t dt m g x st1 st2 : hist (m0, g0) (m, g) -> eval t (Some dt) (m, g) = (Ok x, st1) -> hist st1 st2 -> exists y, eval t (Some dt) st2 = (Ok y, st2) /\ shp y = shp x /\
  exists w, bshape (shp t) (shp dt) = Some w /\ shp x = w ++ zs /\ forall i jx, inb w i -> inb zs jx -> dat y (i ++ jx) = dat x (i ++ jx).
Proof using Dis rtol_pos Start Stored Calm.
  intros H E H'. destruct (call_settles _ _ _ _ _ _ _ _ Dis rtol_pos t0 Calm _ _ _ _ _ (good_hist m g H) E) as (w & Bs & Gd & Sx & xs & xt & Hx).
  assert (Q := history_queries _ _ _ _ _ _ _ _ _ H'). assert (W2 := queries_wf _ _ _ _ _ _ Dis rtol_pos _ _ Q (proj1 Gd)). destruct st2 as [m2 g2]. cbn [fst] in *.
  destruct (settled_call getvalue new_outside new_inside rtol zs sub d same Dis t dt w (at_entry zs xs) (at_entry zs xt) m2 g2 W2 Bs) as (u & Eu & Su & Hu).
  { intros i I. destruct (Hx i I) as (S1 & S0 & D). split; [exact (queries_settled _ _ _ _ _ _ Dis rtol_pos _ _ _ _ Q (proj1 Gd) S1)|exact (queries_settled _ _ _ _ _ _ Dis rtol_pos _ _ _ _ Q (proj1 Gd) S0)]. }
  exists u. split; auto. split; [congruence|]. exists w. split; auto. split; auto. intros i jx I J. rewrite Hu by auto. destruct (Hx i I) as (_ & _ & D). symmetry. apply D; auto.
Qed.
End Memory.
