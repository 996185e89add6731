(** C25: compound Poisson sources with memory conserve jumps. *)
From Coq Require Import List Arith Bool Lia ZArith Reals Lra Sorted.
From Verif Require Import Base BaseNum BaseArr BaseNd BaseIdx M_process M_source M_true S_process S_source S_mc S_true S_true3 L_nd L_sdes L_process L_process2 L_source L_true L_true2 L_true3 P_source P_source3 P_true P_true3 P_true5 P_true6 L_true6 L_true7 L_true8.
Import ListNotations.
Local Open Scope R_scope.

(** *** relations between states, closed under evaluations *)
Section Closed.
Context {S : Type} (Rl : S -> S -> Prop).
Hypothesis Rr : forall st, Rl st st.
Hypothesis Rt : forall a b c, Rl a b -> Rl b c -> Rl a c.
Definition closed {A} (c : S -> res A * S) : Prop := forall st r st', c st = (r, st') -> Rl st st'.
Lemma closed_bind {A B} (c : S -> res A * S) (f : A -> S -> res B * S) : closed c -> (forall a, closed (f a)) -> closed (dbind c f).
Proof using Rt Rr. intros H1 H2 d r d' E. apply dbind_state in E. destruct E as (o & d1 & E1 & E2). eapply Rt; [eapply H1; eauto|]. destruct o as [a|e]; [eapply H2; eauto|]. destruct E2 as [_ <-]. apply Rr. Qed.
Lemma closed_pure {A} (r : res A) : closed (dres r).
Proof using Rr. intros d r' d' E. injection E as _ <-. apply Rr. Qed.
Lemma closed_each {A I} (f : I -> S -> res A * S) l : (forall i, closed (f i)) -> closed (each f l).
Proof using Rr Rt. intro H. induction l as [|i l IH]; cbn [each]; [apply (closed_pure (Ok []))|]. apply closed_bind; auto. intro b. apply closed_bind; auto. intro r. apply (closed_pure (Ok ((i, b) :: r))). Qed.
End Closed.
Lemma closed_call {Z B G} getvalue (out : Z -> R -> R -> G -> res (Z * Z) * G) ins rtol (sub : B -> B -> B) d zs (Rl : list (R * Z) * G -> list (R * Z) * G -> Prop) : (forall st, Rl st st) -> (forall a b c, Rl a b -> Rl b c -> Rl a c) ->
  (forall s, closed Rl (retrieve1 getvalue out ins rtol s)) -> forall t dt, closed Rl (true_call getvalue out ins rtol sub d zs t dt).
Proof.
  intros Rr Rt H. assert (K : forall s, closed Rl (retrieve getvalue out ins rtol d zs s)).
  { intro s. unfold retrieve. apply closed_bind; auto.
    - apply closed_each; auto. intro i. apply closed_bind; auto. intro x. apply closed_pure; auto.
    - intro l. apply (closed_pure Rl Rr (Ok (assembled d (shp s) zs l))). }
  intros t [dt|]; [|apply K]. unfold true_call. apply closed_bind; auto; [apply closed_pure; auto|]. intros [t' dt']. apply closed_bind; auto; [apply closed_pure; auto|]. intro s. apply closed_bind; auto. intro x. apply closed_bind; auto. intro y. apply closed_pure; auto.
Qed.

(** *** jumps between stored times *)
Section Between.
Context {A : Type}.
Lemma between_app (l r : list (R * A)) J a b e : jumps_between (l ++ r) J a b e = jumps_between l J a b e ++ jumps_between r J a b e.
Proof. apply flat_map_app. Qed.
Lemma between_ext (l : list (R * A)) J J' a b e : (forall p, In p l -> a <= fst p -> fst p < b -> J' (fst p) e = J (fst p) e) -> jumps_between l J' a b e = jumps_between l J a b e.
Proof. intro H. apply flat_map_ext_in. intros p I. destruct (Rle_dec a (fst p)); auto. destruct (Rlt_dec (fst p) b); auto. Qed.
Lemma between_times {B} (l : list (R * A)) (l' : list (R * B)) J a b e : map fst l = map fst l' -> jumps_between l J a b e = jumps_between l' J a b e.
Proof. revert l'. induction l as [|p l IH]; intros [|q l'] E; try discriminate; auto. cbn [map] in E. injection E as E1 E2. cbn [jumps_between flat_map]. rewrite E1. f_equal. apply IH; auto. Qed.
End Between.

Section C25.
Context {G : Type}.
Variable poisson : arr R -> list nat -> G -> res (arr Z) * G.
Variable binomial : arr Z -> R -> list nat -> G -> res (arr Z) * G.
Variable rvs : R -> nat -> nat -> G -> res (arr R) * G.
Variables (paths : nat) (vshape : list nat) (lam : param R) (dn_rtol rtol d0 : R).
Hypothesis Po : poisson_ok poisson.
Hypothesis Bi : binomial_ok binomial.
Hypothesis Rv : rvs_ok rvs.
Hypothesis rtol_pos : 0 <= rtol.
Hypothesis dn_pos : 0 <= dn_rtol.
Hypothesis dn_calm : calm dn_rtol d0.
Let zs := vshape ++ [paths].
Hypothesis nonempty : ndindex zs <> [].
Local Notation id := (fun n : arr Z => n).
Local Notation nout := (poisson_outside poisson paths vshape lam).
Local Notation nins := (poisson_inside binomial).
Local Notation ndis := (poisson_disciplined poisson binomial paths vshape lam Po Bi).
Local Notation dn := (true_poisson poisson binomial paths vshape lam dn_rtol).
Local Notation dq := (queries id nout nins dn_rtol).
Local Notation cout := (cpoisson_out poisson binomial rvs paths vshape lam dn_rtol).
Local Notation cins := (cpoisson_in poisson binomial paths vshape lam dn_rtol).
Local Notation cdis := (cpoisson_disciplined poisson binomial rvs paths vshape lam dn_rtol).
Local Notation ret := (retrieve1 fst cout cins rtol).
Local Notation D := (list (R * arr Z) * G)%type.
Local Notation M := (list (R * @cstored R)).
Local Notation DI := (DI paths vshape d0).
Local Notation link := (link rvs paths vshape dn_rtol).
Local Notation cnt := (cnt dn_rtol).

Definition last_none (m : M) : Prop := forall l p, m = l ++ [p] -> snd (snd p) = None.
Definition CI (J : R -> list nat -> list R) (st : M * D) : Prop := wf fst zs (fst st) /\ DI (snd st) /\ chain (link (fst (snd st)) J) (fst st) /\ last_none (fst st).
Definition keeps (m : M) J (m' : M) J' : Prop := incl (map fst m) (map fst m') /\ forall a b e, In a (map fst m) -> In b (map fst m) -> jumps_between m' J' a b e = jumps_between m J a b e.
Definition Rl (st st' : M * D) : Prop := forall J, CI J st -> exists J', CI J' st' /\ keeps (fst st) J (fst st') J'.
Lemma keeps_refl m J : keeps m J m J.
Proof. split; [apply incl_refl|auto]. Qed.
Lemma keeps_trans m J m' J' m2 J2 : keeps m J m' J' -> keeps m' J' m2 J2 -> keeps m J m2 J2.
Proof. intros [I1 K1] [I2 K2]. split; [eapply incl_tran; eauto|]. intros a b e Ia Ib. rewrite K2 by auto. auto. Qed.
Lemma Rl_refl st : Rl st st.
Proof. intros J C. exists J. split; auto. apply keeps_refl. Qed.
Lemma Rl_trans a b c : Rl a b -> Rl b c -> Rl a c.
Proof. intros H1 H2 J C. destruct (H1 J C) as (J1 & C1 & K1). destruct (H2 J1 C1) as (J2 & C2 & K2). exists J2. split; auto. eapply keeps_trans; eauto. Qed.
Lemma link_dq d d' J p q : dq d d' -> DI d -> link (fst d) J p q -> link (fst d') J p q.
Proof using Po Bi dn_pos. intros Q I (ys & n1 & n2 & E & Rc & C1 & C2 & H). exists ys, n1, n2. split; auto. split; auto. split; [eapply dq_cnt; eauto|]. split; [eapply dq_cnt; eauto|]. auto. Qed.
Lemma link_J nm J J' p q : J' (fst p) = J (fst p) -> link nm J p q -> link nm J' p q.
Proof. intros E (ys & n1 & n2 & H). exists ys, n1, n2. rewrite E. exact H. Qed.
Lemma CI_dq J m d d' : dq d d' -> CI J (m, d) -> CI J (m, d').
Proof using Po Bi dn_pos.
  intros Q (W & I & C & L). split; [exact W|]. split; [eapply dq_DI; eauto|]. split; [|exact L]. cbn [fst snd] in *. eapply chain_mono; [|exact C]. intros p q _ Lk. eapply link_dq; eauto.
Qed.
Lemma in_times (m : M) p : In p m -> In (fst p) (map fst m).
Proof. apply in_map. Qed.
Lemma gap (l : M) p q r a : StronglySorted Rlt (map fst (l ++ p :: q :: r)) -> In a (map fst (l ++ p :: q :: r)) -> a <= fst p \/ fst q <= a.
Proof.
  intros S I. destruct p as [tp zp], q as [tq zq]. destruct (sorted_app_cons l tp zp ((tq, zq) :: r) S) as [F1 _]. assert (S' := S). replace (l ++ (tp, zp) :: (tq, zq) :: r) with ((l ++ [(tp, zp)]) ++ (tq, zq) :: r) in S' by (rewrite <- app_assoc; reflexivity). destruct (sorted_app_cons (l ++ [(tp, zp)]) tq zq r S') as [_ F2].
  apply in_map_iff in I. destruct I as ([t z] & <- & I). rewrite Forall_forall in F1, F2. apply in_app_or in I. cbn [fst]. destruct I as [I|[I|[I|I]]].
  - specialize (F1 _ I). cbn [fst] in F1. lra.
  - injection I as -> _. lra.
  - injection I as -> _. lra.
  - specialize (F2 _ I). cbn [fst] in F2. lra.
Qed.
Lemma step s : closed Rl (ret s).
Proof using Po Bi Rv rtol_pos dn_pos dn_calm nonempty.
  intros [m d] r [m' d'] E J CJ. pose proof CJ as (W & I & C & Ln). cbn [fst snd] in *. assert (W' := query_wf fst cout cins rtol zs _ cdis rtol_pos _ _ _ _ _ _ W E).
  assert (Same : dq d d' -> m' = m -> exists J', CI J' (m', d') /\ keeps m J m' J').
  { intros Q ->. exists J. split; [eapply CI_dq; eauto|apply keeps_refl]. }
  destruct W as (Nm & S & F). destruct (sorted_split m s S) as (l1 & l2 & -> & F1 & F2). destruct l1 as [|p1 l1'].
  - destruct l2 as [|[t2 z2] l3]; [elim Nm; auto|]. cbn [app] in *. destruct (memory_snoc ((t2, z2) :: l3)) as (l & [tl zl] & El); [discriminate|]. rewrite (retrieve1_start _ _ _ _ t2 z2 l3 l tl zl s d F2 El) in E. destruct (isclose rtol s tl); [injection E as _ <- <-; apply Same; [constructor|auto]|].
    destruct (cout z2 t2 s d) as [[[z2' zn]|e] d1] eqn:EO; pose proof (calls_out poisson binomial rvs paths vshape lam dn_rtol _ _ _ _ _ _ EO) as Q; injection E as _ <- <-; [|apply Same; auto].
    assert (Lt : s < t2) by apply (Forall_inv F2). destruct (out_spec poisson binomial rvs paths vshape lam dn_rtol d0 Po Bi Rv dn_pos dn_calm z2 t2 s d z2' zn d1 I (Forall_inv F) ltac:(lra) EO) as (Jn & ys & n1 & n2 & Rec & C1 & C2 & Szn & Dr & _ & H). destruct (H Lt) as (-> & Ey & Hv).
    assert (Ns : forall p, In p ((t2, z2) :: l3) -> fst p <> s) by (rewrite Forall_forall in F2; intros p Ip; specialize (F2 p Ip); lra).
    exists (upd J s Jn). split.
    + split; [exact W'|]. split; [eapply dq_DI; eauto|]. cbn [fst snd]. split.
      * cbn [chain]. split.
        { exists ys, n2, n1. cbn [fst snd]. rewrite upd_same. split; auto. split; auto. split; auto. split; auto. intros e Ie. destruct (Hv e Ie). auto. }
        change (chain (link (fst d1) (upd J s Jn)) ((t2, z2) :: l3)). eapply chain_mono; [|exact C]. intros p q Ip Lk. eapply link_J; [apply upd_other; auto|]. eapply link_dq; eauto.
      * intros l' p Ep. destruct l' as [|x l']; [discriminate|]. cbn [app] in Ep. injection Ep as _ Ep. apply (Ln l' p Ep).
    + split; [intros a Ia; right; exact Ia|]. intros a b e Ia Ib. cbn [jumps_between flat_map]. assert (La : s < a). { apply in_map_iff in Ia. destruct Ia as (p & <- & Ip). rewrite Forall_forall in F2. auto. }
      cbn [fst]. destruct (Rle_dec a s); [lra|]. cbn [app]. apply (between_ext ((t2, z2) :: l3)). intros p Ip _ _. rewrite upd_other; auto.
  - destruct (memory_snoc (p1 :: l1')) as (l & [tk zk] & El); [discriminate|]. rewrite El in *. clear p1 l1' El. assert (L : tk <= s) by (apply Forall_app in F1; destruct F1 as [_ F1]; inversion F1; auto). destruct l2 as [|[t2 z2] l3].
    + rewrite app_nil_r in *. rewrite retrieve1_end in E by auto. destruct (isclose rtol s tk) eqn:Cl; [injection E as _ <- <-; apply Same; [constructor|auto]|]. assert (Lt : tk < s) by (apply (not_close_lt rtol rtol_pos); auto; apply isclose_R_false; auto).
      destruct (cout zk tk s d) as [[[zk' zn]|e] d1] eqn:EO; pose proof (calls_out poisson binomial rvs paths vshape lam dn_rtol _ _ _ _ _ _ EO) as Q; injection E as _ <- <-; [|apply Same; auto]. assert (Fk : shp (fst zk) = zs) by (apply Forall_app in F; apply (Forall_inv (proj2 F))).
      destruct (out_spec poisson binomial rvs paths vshape lam dn_rtol d0 Po Bi Rv dn_pos dn_calm zk tk s d zk' zn d1 I Fk ltac:(lra) EO) as (Jn & ys & n1 & n2 & Rec & C1 & C2 & Szn & Dr & H & _). destruct (H Lt) as (-> & Ey & Hv).
      destruct (sorted_app_cons l tk zk [] S) as [Fl _]. rewrite Forall_forall in Fl. assert (Nl : forall p, In p l -> fst p <> tk) by (intros p Ip; specialize (Fl p Ip); lra).
      exists (upd J tk Jn). split.
      * split; [exact W'|]. split; [eapply dq_DI; eauto|]. cbn [fst snd]. split.
        { apply chain_app. split.
          - eapply chain_swap; [| |exact C].
            + intros p x Ip Ix Lk. eapply link_J; [apply upd_other; auto|]. eapply link_dq; eauto.
            + intros p Ip Lk. eapply link_J; [apply upd_other; auto|]. eapply link_dq in Lk; eauto.
          - cbn [chain]. split; auto. exists ys, n1, n2. cbn [fst snd]. rewrite upd_same. split; auto. split; auto. split; auto. split; auto. intros e Ie. destruct (Hv e Ie). auto. }
        { intros l' p Ep. assert (Ep' : (l ++ [(tk, (fst zk, Some ys))]) ++ [(s, zn)] = l' ++ [p]) by (rewrite <- app_assoc; exact Ep). clear Ep. rename Ep' into Ep. apply app_inj_tail in Ep. destruct Ep as [_ <-]. exact Ey. }
      * split; [intros a Ia; rewrite map_app in *; cbn [map fst] in *; apply in_or_app; apply in_app_or in Ia; simpl in *; tauto|]. intros a b e Ia Ib. rewrite !between_app. assert (Lb : b <= tk). { rewrite map_app in Ib. apply in_app_or in Ib. destruct Ib as [Ib|[<-|[]]]; [|cbn; lra]. apply in_map_iff in Ib. destruct Ib as (p & <- & Ip). specialize (Fl p Ip). lra. }
        cbn [jumps_between flat_map fst]. destruct (Rlt_dec tk b); [lra|]. destruct (Rlt_dec s b); [lra|]. destruct (Rle_dec a tk), (Rle_dec a s); cbn [app]; rewrite ?app_nil_r; apply between_ext; intros p Ip _ _; apply f_equal with (f := fun h => h e); apply upd_other; auto.
    + rewrite <- app_assoc in *. cbn [app] in *. rewrite retrieve1_between in E by auto. destruct (isclose rtol s tk) eqn:Cl; [injection E as _ <- <-; apply Same; [constructor|auto]|]. assert (Lt : tk < s) by (apply (not_close_lt rtol rtol_pos); auto; apply isclose_R_false; auto). assert (Lt2 : s < t2) by apply (Forall_inv F2).
      destruct (cins zk z2 tk t2 s d) as [[[zk' [zn|]]|e] d1] eqn:EO; pose proof (calls_in poisson binomial paths vshape lam dn_rtol _ _ _ _ _ _ _ _ EO) as Q; injection E as _ <- <-; [| |apply Same; auto]; [|apply in_none in EO; subst zk'; apply Same; auto].
      assert (Fk : shp (fst zk) = zs) by (apply Forall_app in F; apply (Forall_inv (proj2 F))). assert (C' := C). apply chain_app in C'. destruct C' as [Ca Cb]. cbn [chain] in Cb. destruct Cb as [Lk Cc].
      destruct (in_spec poisson binomial rvs paths vshape lam dn_rtol d0 Po Bi dn_pos dn_calm nonempty J zk z2 tk t2 s d zk' zn d1 I Fk Lt Lt2 Lk EO) as (k & Hk & Ek).
      destruct (sorted_app_cons l tk zk _ S) as [Fl Fr]. rewrite Forall_forall in Fl, Fr, F2. assert (Nl : forall p, In p l -> fst p <> tk /\ fst p <> s) by (intros p Ip; specialize (Fl p Ip); lra). assert (Nr : forall p, In p ((t2, z2) :: l3) -> fst p <> tk /\ fst p <> s) by (intros p Ip; specialize (Fr p Ip); specialize (F2 p Ip); lra).
      set (J' := upd (upd J tk (firsts k (J tk))) s (rests k (J tk))). assert (Jk : J' tk = firsts k (J tk)) by (unfold J'; rewrite upd_other by lra; apply upd_same). assert (Js : J' s = rests k (J tk)) by apply upd_same. assert (Jo : forall u, u <> tk /\ u <> s -> J' u = J u) by (intros u [U1 U2]; unfold J'; rewrite !upd_other by auto; auto).
      destruct (Hk J' ltac:(intros; rewrite Jk; auto) ltac:(intros; rewrite Js; auto)) as [K1 K2].
      exists J'. split.
      * split; [exact W'|]. split; [eapply dq_DI; eauto|]. cbn [fst snd]. split.
        { apply chain_app. split.
          - eapply chain_swap; [| |exact Ca].
            + intros p x Ip Ix Lkx. eapply link_J; [apply Jo; auto|]. eapply link_dq; eauto.
            + intros p Ip Lkx. eapply link_J; [apply Jo; auto|]. eapply link_dq in Lkx; eauto. destruct Lkx as (ys & n1 & n2 & X). exists ys, n1, n2. cbn [fst snd] in *. rewrite Ek. exact X.
          - cbn [chain]. split; [exact K1|]. split; [exact K2|]. change (chain (link (fst d1) J') ((t2, z2) :: l3)). eapply chain_mono; [|exact Cc]. intros p q Ip Lkx. eapply link_J; [apply Jo; auto|]. eapply link_dq; eauto. }
        { intros l' p Ep. destruct (memory_snoc ((t2, z2) :: l3)) as (l4 & q & E4); [discriminate|]. assert (Ep' : (l ++ (tk, zk') :: (s, zn) :: l4) ++ [q] = l' ++ [p]) by (rewrite <- app_assoc; cbn [app]; rewrite <- E4; exact Ep). clear Ep. rename Ep' into Ep. apply app_inj_tail in Ep. destruct Ep as [_ <-].
          apply (Ln (l ++ (tk, zk) :: l4)). rewrite E4, <- app_assoc. reflexivity. }
      * split; [intros a Ia; rewrite map_app in *; cbn [map fst] in *; apply in_or_app; apply in_app_or in Ia; simpl in *; tauto|]. intros a b e Ia Ib. pose proof (gap _ _ _ _ a S Ia) as Ga. pose proof (gap _ _ _ _ b S Ib) as Gb. cbn [fst] in Ga, Gb. rewrite !between_app. f_equal; [apply between_ext; intros p Ip _ _; rewrite Jo by auto; auto|].
        change (jumps_between ((tk, zk') :: (s, zn) :: (t2, z2) :: l3) J' a b e) with ((if Rle_dec a tk then if Rlt_dec tk b then J' tk e else [] else []) ++ (if Rle_dec a s then if Rlt_dec s b then J' s e else [] else []) ++ jumps_between ((t2, z2) :: l3) J' a b e).
        change (jumps_between ((tk, zk) :: (t2, z2) :: l3) J a b e) with ((if Rle_dec a tk then if Rlt_dec tk b then J tk e else [] else []) ++ jumps_between ((t2, z2) :: l3) J a b e).
        rewrite (between_ext ((t2, z2) :: l3) J J' a b e) by (intros p Ip _ _; rewrite Jo by auto; auto). rewrite app_assoc. f_equal. rewrite Jk, Js. unfold firsts, rests. destruct (Rle_dec a tk), (Rle_dec a s); try lra; [|reflexivity]. destruct (Rlt_dec tk b), (Rlt_dec s b); try lra; [|reflexivity]. apply firstn_skipn.
Qed.
Lemma chistory_Rl st st' : chistory poisson binomial rvs paths vshape lam dn_rtol rtol st st' -> Rl st st'.
Proof using Po Bi Rv rtol_pos dn_pos dn_calm nonempty.
  induction 1 as [st|t dt st r st1 st2 E H IH|key t dt st r st1 st2 E H IH|m d d' st2 Hd H IH].
  - apply Rl_refl.
  - eapply Rl_trans; [|exact IH]. exact (closed_call fst cout cins rtol nsub 0 zs Rl Rl_refl Rl_trans step t dt _ _ _ E).
  - eapply Rl_trans; [|exact IH]. unfold indexed_call in E. revert E. apply (closed_bind Rl Rl_refl Rl_trans); [exact (closed_call fst cout cins rtol nsub 0 zs Rl Rl_refl Rl_trans step t dt)|]. intro x. apply closed_pure, Rl_refl.
  - intros J C. destruct (IH J (CI_dq _ _ _ _ (history_queries _ _ _ _ _ _ _ _ _ Hd) C)) as (J' & C' & K). exists J'. auto.
Qed.
(** in terms of evaluations of dn *)
Lemma cnt_count d t n : DI d -> cnt (fst d) t n -> exists x, count_at poisson binomial paths vshape lam dn_rtol d t x /\ forall e, inb zs e -> dat x e = dat n e.
Proof using Po Bi.
  intros [[W _] _] C. destruct d as [nm g]. destruct (settled_retrieve id nout nins dn_rtol zs 0%Z _ ndis (ascalar t) (fun _ => n) nm g W) as (x & E & S & H); [intros i Ii; exact C|]. exists x. split; [exact E|]. intros e Ie. apply (H [] e); [constructor|auto].
Qed.
Lemma CI_accounts J m d : CI J (m, d) <-> wf fst zs m /\ DI d /\ accounts zs (count_at poisson binomial paths vshape lam dn_rtol d) (drawable rvs) m J.
Proof using Po Bi dn_pos dn_calm.
  unfold CI, accounts. cbn [fst snd]. split.
  - intros (W & I & C & L). split; auto. split; auto. split.
    + intros l t1 j1 y1 t2 j2 y2 r ->. destruct (proj1 (chain_pair _ _) C l (t1, (j1, y1)) (t2, (j2, y2)) r eq_refl) as (ys & n1 & n2 & E & Rec & C1 & C2 & H). cbn [fst snd] in *. destruct (cnt_count d t1 n1 I C1) as (x1 & X1 & H1). destruct (cnt_count d t2 n2 I C2) as (x2 & X2 & H2).
      exists ys, x1, x2. split; auto. split; auto. split; auto. split; auto. intros e Ie. rewrite H1, H2 by auto. auto.
    + intros l t j y ->. exact (L l (t, (j, y)) eq_refl).
  - intros (W & I & H & L). split; auto. split; auto. split.
    + apply chain_pair. intros l [t1 [j1 y1]] [t2 [j2 y2]] r E. destruct (H l t1 j1 y1 t2 j2 y2 r E) as (ys & n1 & n2 & Ey & Rec & C1 & C2 & K). exists ys, n1, n2. cbn [fst snd]. split; auto. split; auto. split; [apply (dn_one poisson binomial paths vshape lam dn_rtol d0 Po Bi dn_pos dn_calm t1 d n1 d I C1)|]. split; [apply (dn_one poisson binomial paths vshape lam dn_rtol d0 Po Bi dn_pos dn_calm t2 d n2 d I C2)|]. exact K.
    + intros l [t [j y]] E. exact (L l t j y E).
Qed.

(** the initial state: dn may have been used before *)
Variables (t0 : R) (z0 : arr R) (m0 : M) (n0 : arr Z) (nm0 : list (R * arr Z)) (ga gb : G) (nm1 : list (R * arr Z)).
Hypothesis Start : true_new (fun j : arr R => (j, None)) zs t0 z0 = Ok m0.
Hypothesis Dn_start : true_new id zs d0 n0 = Ok nm0.
Hypothesis Dn_used : count_history poisson binomial paths vshape lam dn_rtol (nm0, ga) (nm1, gb).
Lemma CI_start : CI (fun _ _ => []) (m0, (nm1, gb)).
Proof using Po Bi dn_pos Start Dn_start Dn_used.
  destruct (start_state fst zs (fun j : arr R => (j, None)) (fun x => eq_refl) t0 z0 m0 Start) as [E W]. split; [exact W|]. split.
  - cbn [snd]. eapply dq_DI; eauto; [apply (history_queries _ _ _ _ _ _ _ _ _ Dn_used)|]. split; [eapply counts_start; eauto|]. destruct (start_state id zs id (fun x => eq_refl) d0 n0 nm0 Dn_start) as [-> _]. simpl. auto.
  - cbn [fst snd]. rewrite E. split; [simpl; auto|]. intros l p Ep. destruct l as [|a [|b l]]; try discriminate. injection Ep as <-. reflexivity.
Qed.
(** values, recorded jumps and counts agree, after any evaluations *)
Theorem C25_conserved m d : chistory poisson binomial rvs paths vshape lam dn_rtol rtol (m0, (nm1, gb)) (m, d) ->
  exists J, accounts zs (count_at poisson binomial paths vshape lam dn_rtol d) (drawable rvs) m J.
Proof using Po Bi Rv rtol_pos dn_pos dn_calm nonempty Start Dn_start Dn_used.
  intro H. destruct (chistory_Rl _ _ H _ CI_start) as (J & C & _). exists J. apply (proj1 (CI_accounts J m d) C).
Qed.
(** later evaluations split intervals and their jumps, in order: between two times already stored there are the same jumps as before *)
Theorem C25_split m d m' d' J : chistory poisson binomial rvs paths vshape lam dn_rtol rtol (m0, (nm1, gb)) (m, d) -> accounts zs (count_at poisson binomial paths vshape lam dn_rtol d) (drawable rvs) m J ->
  chistory poisson binomial rvs paths vshape lam dn_rtol rtol (m, d) (m', d') ->
  exists J', accounts zs (count_at poisson binomial paths vshape lam dn_rtol d') (drawable rvs) m' J' /\ incl (map fst m) (map fst m') /\
    forall a b e, In a (map fst m) -> In b (map fst m) -> jumps_between m' J' a b e = jumps_between m J a b e.
Proof using Po Bi Rv rtol_pos dn_pos dn_calm nonempty Start Dn_start Dn_used.
  intros H A H'. destruct (chistory_Rl _ _ H _ CI_start) as (J0 & (W & I & _) & _). assert (C : CI J (m, d)) by (apply CI_accounts; auto). destruct (chistory_Rl _ _ H' _ C) as (J' & C' & K1 & K2). exists J'. split; [apply (proj1 (CI_accounts J' m' d') C')|]. auto.
Qed.
End C25.
