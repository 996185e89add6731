(** The joint state of a compound Poisson source with memory and of its counts: invariants. *)
From Coq Require Import List Arith Bool Lia ZArith Reals Lra Sorted.
From Verif Require Import Base BaseNum BaseArr BaseNd BaseIdx M_process M_source M_true S_process S_source S_mc S_true S_true3 L_nd L_sdes L_process L_process2 L_source L_true L_true2 L_true3 P_source P_source3 P_true P_true3 P_true5 P_true6 L_true6 L_true7.
Import ListNotations.
Local Open Scope R_scope.

Section Joint.
Context {G : Type}.
Variable poisson : arr R -> list nat -> G -> res (arr Z) * G.
Variable binomial : arr Z -> R -> list nat -> G -> res (arr Z) * G.
Variable rvs : R -> nat -> nat -> G -> res (arr R) * G.
Variables (paths : nat) (vshape : list nat) (lam : param R) (dn_rtol rtol d0 : R).
Hypothesis Po : poisson_ok poisson.
Hypothesis Bi : binomial_ok binomial.
Hypothesis Rv : rvs_ok rvs.
Hypothesis rtol_pos : 0 <= rtol.
Hypothesis dn_pos : 0 <= dn_rtol.
Hypothesis dn_calm : calm dn_rtol d0.
Let zs := vshape ++ [paths].
Hypothesis nonempty : ndindex zs <> [].
Local Notation id := (fun n : arr Z => n).
Local Notation nout := (poisson_outside poisson paths vshape lam).
Local Notation nins := (poisson_inside binomial).
Local Notation ndis := (poisson_disciplined poisson binomial paths vshape lam Po Bi).
Local Notation dn := (true_poisson poisson binomial paths vshape lam dn_rtol).
Local Notation dq := (queries id nout nins dn_rtol).
Local Notation cout := (cpoisson_out poisson binomial rvs paths vshape lam dn_rtol).
Local Notation cins := (cpoisson_in poisson binomial paths vshape lam dn_rtol).
Local Notation ret := (retrieve1 fst cout cins rtol).
Local Notation D := (list (R * arr Z) * G)%type.

(** *** counts *)
Definition DI (d : D) : Prop := inv_counts paths vshape d /\ In d0 (map fst (fst d)).
Definition cnt (nm : list (R * arr Z)) (t : R) (n : arr Z) : Prop := settled id dn_rtol (fun a b => all_equal Z.eqb a b = Ok true) nm t n.
Lemma DI_good d : DI d -> good id zs d0 d.
Proof. intros [[W _] I]. split; auto. Qed.
Lemma dq_DI d d' : dq d d' -> DI d -> DI d'.
Proof using Po Bi dn_pos.
  intros Q I. split; [eapply counts_queries; eauto; apply I|]. apply (good_queries id nout nins dn_rtol zs _ ndis dn_pos d0 d d' Q (DI_good d I)).
Qed.
Lemma dq_cnt d d' t n : dq d d' -> DI d -> cnt (fst d) t n -> cnt (fst d') t n.
Proof using Po Bi dn_pos. intros Q [[W _] _] C. apply (queries_settled id nout nins dn_rtol zs _ ndis dn_pos d d' t n Q W C). Qed.
Lemma cnt_shape d t n : DI d -> cnt (fst d) t n -> shp n = zs.
Proof. intros [[W _] _] C. eapply settled_shape; eauto. Qed.
Lemma cnt_le d a n b n' : DI d -> cnt (fst d) a n -> cnt (fst d) b n' -> a <= b -> counts_le zs n n'.
Proof.
  intros I C1 C2 L. assert (S1 := cnt_shape _ _ _ I C1). assert (S2 := cnt_shape _ _ _ I C2). destruct I as [[W Ri] _].
  destruct (settled_floor paths vshape dn_rtol _ _ _ W C1) as (l1 & tk & zk & l2 & E1 & L1 & F1 & A1). destruct (settled_floor paths vshape dn_rtol _ _ _ W C2) as (l1' & tk' & zk' & l2' & E2 & L2 & F2 & A2).
  intros ix Ix. destruct A1 as [Q1 A1], A2 as [Q2 A2]. rewrite <- A1 by (rewrite Q1, S1; auto). rewrite <- A2 by (rewrite Q2, S2; auto).
  assert (J : In (tk, zk) (l1' ++ (tk', zk') :: l2')) by (rewrite <- E2, E1; apply in_or_app; simpl; auto). apply in_app_or in J. destruct J as [J|[J|J]].
  - rewrite E2 in Ri. apply rising_app in Ri. destruct Ri as (_ & _ & Q). apply (Q _ _ J (or_introl eq_refl) ix Ix).
  - injection J as _ <-. lia.
  - rewrite Forall_forall in F2. specialize (F2 _ J). cbn [fst] in F2. lra.
Qed.
Lemma cnt_same d t n n' : DI d -> cnt (fst d) t n -> cnt (fst d) t n' -> forall e, inb zs e -> dat n e = dat n' e.
Proof. intros I C1 C2 e E. pose proof (cnt_le d t n t n' I C1 C2 (Rle_refl _) e E). pose proof (cnt_le d t n' t n I C2 C1 (Rle_refl _) e E). lia. Qed.
Lemma dn_queries t dt d r d' : dn t dt d = (r, d') -> dq d d'.
Proof. intro E. eapply call_queries; exact E. Qed.
Lemma dn_one t d n d' : DI d -> dn (ascalar t) None d = (Ok n, d') -> dq d d' /\ shp n = zs /\ cnt (fst d') t n.
Proof using Po Bi dn_pos dn_calm.
  intros I E. split; [eapply dn_queries; eauto|]. destruct (retrieve_settles id nout nins dn_rtol zs 0%Z _ ndis dn_pos d0 dn_calm (ascalar t) d n d' (DI_good d I) E) as (_ & S & H). cbn [ascalar shp app] in S. split; auto.
  specialize (H [] ltac:(constructor)). cbn [ascalar dat] in H. eapply settled_aeq; [exact H|]. apply at_entry_nil; auto.
Qed.
Lemma dn_two t dt d n d' : DI d -> dn (mkArr [] (bget (ascalar t))) (Some (mkArr [] (bget (ascalar dt)))) d = (Ok n, d') ->
  dq d d' /\ shp n = zs /\ exists n1 n2, cnt (fst d') t n1 /\ cnt (fst d') (t + dt) n2 /\ forall e, inb zs e -> dat n e = (dat n2 e - dat n1 e)%Z.
Proof using Po Bi dn_pos dn_calm.
  intros I E. split; [eapply dn_queries; eauto|]. destruct (call_settles id nout nins dn_rtol zs Z.sub 0%Z _ ndis dn_pos d0 dn_calm _ _ d n d' (DI_good d I) E) as (w & B & _ & S & xs & xt & H). injection B as <-. cbn [app] in S. split; auto.
  destruct (H [] ltac:(constructor)) as (H1 & H2 & H3). exists (at_entry zs xt []), (at_entry zs xs []). split; [exact H2|]. split; [exact H1|]. intros e Ie. apply (H3 e Ie).
Qed.

(** *** what a call does to the counts *)
Definition calls {A} (c : D -> res A * D) : Prop := forall d r d', c d = (r, d') -> dq d d'.
Lemma calls_bind {A B} (c : D -> res A * D) (f : A -> D -> res B * D) : calls c -> (forall a, calls (f a)) -> calls (dbind c f).
Proof. intros H1 H2 d r d' E. apply dbind_state in E. destruct E as (o & d1 & E1 & E2). eapply queries_trans; [eapply H1; eauto|]. destruct o as [a|e]; [eapply H2; eauto|]. destruct E2 as [_ <-]. constructor. Qed.
Lemma calls_pure {A} (r : res A) : calls (dres r).
Proof. intros d r' d' E. injection E as _ <-. constructor. Qed.
Lemma calls_ret {A} (a : A) : calls (dret a).
Proof. apply (calls_pure (Ok a)). Qed.
Lemma calls_fail {A} e : calls (dfail (A := A) e).
Proof. apply (calls_pure (Err e)). Qed.
Lemma calls_each {A I} (f : I -> D -> res A * D) l : (forall i, calls (f i)) -> calls (each f l).
Proof. intro H. induction l as [|i l IH]; cbn [each]; [apply calls_ret|]. apply calls_bind; auto. intro b. apply calls_bind; auto. intro r. apply calls_ret. Qed.
Lemma calls_rng {A} (c : G -> res A * G) : calls (with_memory c).
Proof. intros [m g] r d' E. unfold with_memory in E. destruct (c g) as [r' g']. injection E as _ <-. eapply q_other. constructor. Qed.
Lemma calls_dn t dt : calls (dn t dt).
Proof. intros d r d' E. eapply dn_queries; eauto. Qed.
Lemma calls_samples w t (dt : arr R) n s : calls (each (fun i =>
           let sign := nsign (dat dt i) in
           dbind (dres (sub_arr n i)) (fun ni =>
           let pos := amap (fun k => (sign * k)%Z) ni in
           dbind (dres (zmax (ravel pos))) (fun nmax =>
           dbind (each (fun j => jump_sample (fun t m j => with_memory (rvs t m j)) s (mid_time t dt i) pos j) (seq 1 (Z.to_nat nmax))) (fun l =>
           dret (mkArr s (jumps_at (V := R) (List.length (shp ni)) sign (the_samples l)), map snd (the_samples l)))))) (ndindex w)).
Proof.
  apply calls_each. intro i. cbv zeta. apply calls_bind; [apply calls_pure|]. intro ni. apply calls_bind; [apply calls_pure|]. intro nmax. apply calls_bind; [|intro; apply calls_ret].
  apply calls_each. intro j. unfold jump_sample. destruct (filter _ _); [apply calls_ret|]. apply calls_bind; [apply calls_rng|]. intro. apply calls_bind; [apply calls_pure|]. intro; apply calls_ret.
Qed.
Lemma calls_cpoisson (t dt : arr R) : calls (cpoisson_call (fun t dt => dn t (Some dt)) (fun t m j => with_memory (rvs t m j)) paths vshape t dt).
Proof.
  unfold cpoisson_call. apply calls_bind; [apply calls_pure|]. intros [t' dt']. apply calls_bind; [apply calls_dn|]. intro n. apply calls_bind; [|intro; apply calls_ret]. apply calls_samples.
Qed.
Lemma calls_out z t s : calls (cout z t s).
Proof.
  unfold cpoisson_out, cpoisson_outside. apply calls_bind; [apply calls_cpoisson|]. intros [[dj n] y]. apply calls_bind; [apply calls_pure|]. intro j. destruct (nlt t s); apply calls_ret.
Qed.
Lemma calls_in z1 z2 t1 t2 s : calls (cins z1 z2 t1 t2 s).
Proof.
  unfold cpoisson_in, cpoisson_inside. apply calls_bind; [apply calls_pure|]. intros []; [apply calls_ret|]. do 3 (apply calls_bind; [apply calls_dn|]; intro). do 4 (apply calls_bind; [apply calls_pure|]; intro).
  apply calls_bind; [destruct (snd z1); [apply calls_pure|apply calls_fail]|]. intro. do 3 (apply calls_bind; [apply calls_pure|]; intro). apply calls_ret.
Qed.
Lemma call_split (t dt : R) d dz n ys d' : cpoisson_call (fun t dt => dn t (Some dt)) (fun t m j => with_memory (rvs t m j)) paths vshape (ascalar t) (ascalar dt) d = (Ok (dz, n, ys), d') ->
  exists d1, dn (mkArr [] (bget (ascalar t))) (Some (mkArr [] (bget (ascalar dt)))) d = (Ok n, d1) /\ dq d1 d'.
Proof.
  intro C. unfold cpoisson_call in C. apply dbind_ok in C. destruct C as ([t' dt'] & g0 & E0 & C). apply dres_ok in E0. destruct E0 as [E0 ->]. unfold broadcast2 in E0. cbn [ascalar shp bshape] in E0. injection E0 as <- <-.
  apply dbind_ok in C. destruct C as (n' & d1 & DN & C). exists d1. apply dbind_ok in C. destruct C as (l & d2 & T & C). apply dret_ok in C. destruct C as [C ->]. injection C as -> -> ->. split; [exact DN|]. exact (calls_samples _ _ _ _ _ _ _ _ T).
Qed.

(** *** adjacent values *)
Definition link (nm : list (R * arr Z)) (J : R -> list nat -> list R) (p q : R * @cstored R) : Prop :=
  exists ys n1 n2, snd (snd p) = Some ys /\ recorded zs (J (fst p)) ys /\ cnt nm (fst p) n1 /\ cnt nm (fst q) n2 /\
    forall e, inb zs e -> dat (fst (snd q)) e = dat (fst (snd p)) e + total (J (fst p) e) /\ (dat n2 e - dat n1 e)%Z = Z.of_nat (List.length (J (fst p) e)) /\ List.Forall (drawable rvs) (J (fst p) e).
Definition upd (J : R -> list nat -> list R) (t : R) (K : list nat -> list R) : R -> list nat -> list R := fun u => if Req_EM_T u t then K else J u.
Lemma upd_same J t K : upd J t K t = K.
Proof. unfold upd. destruct (Req_EM_T t t); congruence. Qed.
Lemma upd_other J t K u : u <> t -> upd J t K u = J u.
Proof. unfold upd. destruct (Req_EM_T u t); congruence. Qed.
Lemma rvs_memory_ok : rvs_ok (fun t m j => with_memory (M := list (R * arr Z)) (rvs t m j)).
Proof using Rv. intros t m j [nm g] y g' E. unfold with_memory in E. destruct (rvs t m j g) as [r g1] eqn:Q. injection E as -> _. eapply Rv; eauto. Qed.
Lemma drawable_memory x : drawable (fun t m j => with_memory (M := list (R * arr Z)) (rvs t m j)) x -> drawable rvs x.
Proof. intros (tm & m & j & [nm g] & y & g' & ix & E & I & Q). unfold with_memory in E. destruct (rvs tm m j g) as [r g1] eqn:W. injection E as -> _. exists tm, m, j, g, y, g1, ix. auto. Qed.
Lemma out_spec z t s d z' zn d' : DI d -> shp (fst z) = zs -> t <> s -> cout z t s d = (Ok (z', zn), d') ->
  exists J ys n1 n2, recorded zs J ys /\ cnt (fst d') t n1 /\ cnt (fst d') s n2 /\ shp (fst zn) = zs /\ (forall e, inb zs e -> List.Forall (drawable rvs) (J e)) /\
    (t < s -> z' = (fst z, Some ys) /\ snd zn = None /\ forall e, inb zs e -> dat (fst zn) e = dat (fst z) e + total (J e) /\ (dat n2 e - dat n1 e)%Z = Z.of_nat (List.length (J e))) /\
    (s < t -> z' = z /\ snd zn = Some ys /\ forall e, inb zs e -> dat (fst z) e = dat (fst zn) e + total (J e) /\ (dat n1 e - dat n2 e)%Z = Z.of_nat (List.length (J e))).
Proof using Po Bi Rv dn_pos dn_calm.
  intros I Sz Ne E. unfold cpoisson_out, cpoisson_outside in E. apply dbind_ok in E. destruct E as ([[dj n] ys] & d2 & C & E). apply dbind_ok in E. destruct E as (j & d3 & A & E). apply dres_ok in A. destruct A as [A ->].
  assert (Ed : d2 = d') by (destruct (nlt t s); apply dret_ok in E; symmetry; apply (proj2 E)). subst d2.
  destruct (call_split _ _ _ _ _ _ _ C) as (d1 & E1 & Q1). destruct (call_recorded (fun t m j => with_memory (rvs t m j)) rvs_memory_ok (fun t dt => dn t (Some dt)) paths vshape t (nsub s t) d dj n ys d' C) as (d1' & E1' & Sj & K). rewrite E1 in E1'. injection E1' as <-.
  destruct (dn_two t (nsub s t) d n d1 I E1) as (Q0 & Sn & n1 & n2 & C1 & C2 & Hn). assert (I1 := dq_DI _ _ Q0 I). replace (t + nsub s t) with s in C2 by (change (nsub s t) with (s - t); lra).
  assert (Sg : nsign (nsub s t) = if Rlt_dec t s then 1%Z else (-1)%Z).
  { unfold nsign. destruct (nlt nzero (nsub s t)) eqn:X; [apply nlt_R in X|apply nlt_R_false in X; destruct (nlt (nsub s t) nzero) eqn:Y; [apply nlt_R in Y|apply nlt_R_false in Y]]; change (@nzero R Num_R) with 0 in *; change (nsub s t) with (s - t) in *; destruct (Rlt_dec t s); auto; lra. }
  rewrite Sg in K. destruct (K Sn) as (J & M & Rec & HJ).
  { intros r Ir. rewrite Hn by auto. destruct (Rlt_dec t s).
    - pose proof (cnt_le d1 t n1 s n2 I1 C1 C2 ltac:(lra) r Ir). lia.
    - pose proof (cnt_le d1 s n2 t n1 I1 C2 C1 ltac:(lra) r Ir). lia. }
  destruct (aop_same_shape _ _ _ zs _ A Sz Sj) as [Sw Hw]. exists J, ys, n1, n2. split; auto. split; [eapply dq_cnt; eauto|]. split; [eapply dq_cnt; eauto|]. destruct M as [_ M].
  split; [destruct (nlt t s); apply dret_ok in E; destruct E as [E _]; injection E as -> ->; exact Sw|]. split; [intros e Ie; eapply Forall_impl; [|apply (HJ e Ie)]; apply drawable_memory|].
  split; intro L.
  - replace (nlt t s) with true in E by (symmetry; apply nlt_R; auto). apply dret_ok in E. destruct E as [E _]. injection E as -> ->. split; auto. split; auto. intros e Ie. cbn [fst]. rewrite Hw by auto. destruct (HJ e Ie) as [Qj _]. specialize (M e Ie). cbn [amap dat] in M. rewrite Hn in M by auto. destruct (Rlt_dec t s); [|lra]. split; [|lia]. change (nadd (V := R)) with Rplus. rewrite Qj. lra.
  - replace (nlt t s) with false in E by (symmetry; apply nlt_R_false; lra). apply dret_ok in E. destruct E as [E _]. injection E as -> ->. split; auto. split; auto. intros e Ie. cbn [fst]. rewrite Hw by auto. destruct (HJ e Ie) as [Qj _]. specialize (M e Ie). cbn [amap dat] in M. rewrite Hn in M by auto. destruct (Rlt_dec t s); [lra|]. split; [|lia]. change (nadd (V := R)) with Rplus. rewrite Qj. lra.
Qed.
Lemma in_none z1 z2 t1 t2 s d z1' d' : cins z1 z2 t1 t2 s d = (Ok (z1', None), d') -> z1' = z1.
Proof.
  intro E. unfold cpoisson_in, cpoisson_inside in E. apply dbind_ok in E. destruct E as (b & g1 & H1 & E). destruct b; [apply dret_ok in E; destruct E as [E _]; injection E as ->; auto|].
  do 11 (apply dbind_ok in E; destruct E as (? & ? & _ & E)). apply dret_ok in E. destruct E as [E _]. discriminate.
Qed.
(** the jumps of an interval are split where the counts say *)
Lemma in_spec J z1 z2 t1 t2 s d z1' zn d' : DI d -> shp (fst z1) = zs -> t1 < s -> s < t2 -> link (fst d) J (t1, z1) (t2, z2) -> cins z1 z2 t1 t2 s d = (Ok (z1', Some zn), d') ->
  exists k, (forall J', (forall e, inb zs e -> J' t1 e = firsts k (J t1) e) -> (forall e, inb zs e -> J' s e = rests k (J t1) e) -> link (fst d') J' (t1, z1') (s, zn) /\ link (fst d') J' (s, zn) (t2, z2)) /\ fst z1' = fst z1.
Proof using Po Bi dn_pos dn_calm nonempty.
  intros I S1 L1 L2 (ys & m1 & m2 & Ey & Rec & C1 & C2 & H) E. cbn [fst snd] in *. unfold cpoisson_in, cpoisson_inside in E. apply dbind_ok in E. destruct E as (b & g1 & H1 & E). apply dres_ok in H1. destruct H1 as [_ ->]. destruct b; [apply dret_ok in E; destruct E as [E _]; discriminate|].
  apply dbind_ok in E. destruct E as (n1 & da & E1 & E). destruct (dn_one _ _ _ _ I E1) as (Qa & Sn1 & K1). assert (Ia := dq_DI _ _ Qa I).
  apply dbind_ok in E. destruct E as (ns & db & E2 & E). destruct (dn_one _ _ _ _ Ia E2) as (Qb & Sns & Ks). assert (Ib := dq_DI _ _ Qb Ia).
  apply dbind_ok in E. destruct E as (n2 & dc & E3 & E). destruct (dn_one _ _ _ _ Ib E3) as (Qc & Sn2 & K2). assert (Ic := dq_DI _ _ Qc Ib).
  apply dbind_ok in E. destruct E as (n21 & ? & H5 & E). apply dres_ok in H5. destruct H5 as [H5 ->]. apply (aop_same_shape _ _ _ zs) in H5; auto. destruct H5 as [S21 H21].
  apply dbind_ok in E. destruct E as (ns1 & ? & H6 & E). apply dres_ok in H6. destruct H6 as [H6 ->]. apply (aop_same_shape _ _ _ zs) in H6; auto. destruct H6 as [Ss1 Hs1].
  apply dbind_ok in E. destruct E as (n2s & ? & H7 & E). apply dres_ok in H7. destruct H7 as [H7 ->]. apply (aop_same_shape _ _ _ zs) in H7; auto. destruct H7 as [S2s H2s].
  apply dbind_ok in E. destruct E as (nmax & ? & H8 & E). apply dres_ok in H8. destruct H8 as [H8 ->]. rewrite Ey in E.
  (* counts *)
  assert (Qbc := queries_trans _ _ _ _ _ _ _ Qb Qc). assert (Qac := queries_trans _ _ _ _ _ _ _ Qa Qbc).
  assert (D1 := dq_cnt _ _ _ _ Qbc Ia K1). assert (Ds := dq_cnt _ _ _ _ Qc Ib Ks). assert (D2 := K2).
  assert (V1 := cnt_same dc t1 n1 m1 Ic D1 (dq_cnt _ _ _ _ Qac I C1)). assert (V2 := cnt_same dc t2 n2 m2 Ic D2 (dq_cnt _ _ _ _ Qac I C2)).
  assert (Le1 := cnt_le dc t1 n1 s ns Ic D1 Ds ltac:(lra)). assert (Le2 := cnt_le dc s ns t2 n2 Ic Ds D2 ltac:(lra)).
  assert (M21 : matches zs n21 (J t1)). { split; auto. intros e Ie. rewrite H21 by auto. rewrite V1, V2 by auto. apply (H e Ie). }
  rewrite (count_max_matches zs n21 (J t1) nonempty M21) in H8. injection H8 as <-.
  assert (Wi : within zs ns1 (J t1)). { intros e Ie. rewrite Hs1 by auto. specialize (Le1 e Ie). specialize (Le2 e Ie). destruct M21 as [_ M21]. rewrite <- M21 by auto. rewrite H21 by auto. lia. }
  apply dbind_ok in E. destruct E as (yy & ? & H9 & E). apply dres_ok in H9. destruct H9 as [H9 ->]. destruct (decode_recorded zs n21 (J t1) ys nonempty M21 Rec) as (yy' & Q & Pad). rewrite Q in H9. injection H9 as <-.
  assert (P1 := padded_first zs _ ns1 (J t1) yy' Wi Pad). assert (P2 := padded_second zs _ ns1 (J t1) yy' Wi (Nat.le_refl _) Pad).
  assert (M1 := matches_first zs ns1 (J t1) Ss1 Wi).
  assert (M2 : matches zs n2s (rests ns1 (J t1))). { split; auto. intros e Ie. unfold rests. rewrite skipn_length. destruct M21 as [_ M21]. specialize (M21 e Ie). specialize (Le1 e Ie). specialize (Le2 e Ie). rewrite H21 in M21 by auto. rewrite H2s, Hs1 by auto. lia. }
  apply dbind_ok in E. destruct E as (y1 & ? & H10 & E). apply dres_ok in H10. destruct H10 as [H10 ->]. apply (encode_recorded zs _ _ _ _ _ nonempty M1 (longest_first zs ns1 (J t1)) P1) in H10.
  apply dbind_ok in E. destruct E as (y2 & ? & H11 & E). apply dres_ok in H11. destruct H11 as [H11 ->]. apply (encode_recorded zs _ _ _ _ _ nonempty M2 (longest_rest zs ns1 (J t1)) P2) in H11.
  apply dbind_ok in E. destruct E as (j & ? & H12 & E). apply dres_ok in H12. destruct H12 as [H12 ->]. apply dret_ok in E. destruct E as [E ->]. injection E as -> ->.
  apply (aop_same_shape _ _ _ zs) in H12; auto; [|cbn [shp]; rewrite (proj1 Pad); apply removelast_last]. destruct H12 as [Sj Hj].
  exists ns1. split; [|reflexivity]. intros J' E1' E2'.
  assert (Tot : forall e, total (J t1 e) = total (firsts ns1 (J t1) e) + total (rests ns1 (J t1) e)).
  { intro e. unfold firsts, rests. rewrite <- (firstn_skipn (Z.to_nat (dat ns1 e)) (J t1 e)) at 1. unfold total. rewrite fold_right_app. clear. induction (firstn (Z.to_nat (dat ns1 e)) (J t1 e)) as [|a l IH]; simpl; [lra|]. rewrite IH. lra. }
  split.
  - exists y1, n1, ns. cbn [fst snd]. split; auto. split; [eapply recorded_ext; [|exact H10]; intros r Ir; symmetry; auto|]. split; auto. split; auto. intros e Ie. rewrite E1' by auto. rewrite Hj by auto. cbn [dat]. split; [|split].
    + change (nadd (V := R)) with Rplus. f_equal. apply (nsum_padded zs _ (firsts ns1 (J t1)) _ e P1); auto. apply longest_first.
    + rewrite <- (proj2 M1 e Ie). rewrite Hs1 by auto. reflexivity.
    + destruct (H e Ie) as (_ & _ & F). unfold firsts. apply Forall_forall. intros x Ix. rewrite Forall_forall in F. apply F. rewrite <- (firstn_skipn (Z.to_nat (dat ns1 e)) (J t1 e)). apply in_or_app. auto.
  - exists y2, ns, n2. cbn [fst snd]. split; auto. split; [eapply recorded_ext; [|exact H11]; intros r Ir; symmetry; auto|]. split; auto. split; auto. intros e Ie. rewrite E2' by auto. rewrite Hj by auto. cbn [dat]. destruct (H e Ie) as (Hv & _ & F). split; [|split].
    + change (nadd (V := R)) with Rplus. rewrite (nsum_padded zs _ (firsts ns1 (J t1)) _ e P1); auto; [|apply longest_first]. rewrite Hv, Tot. lra.
    + rewrite <- (proj2 M2 e Ie). rewrite H2s by auto. reflexivity.
    + unfold rests. apply Forall_forall. intros x Ix. rewrite Forall_forall in F. apply F. rewrite <- (firstn_skipn (Z.to_nat (dat ns1 e)) (J t1 e)). apply in_or_app. auto.
Qed.
End Joint.
