(** C25: when compound Poisson sources with memory succeed. *)
From Coq Require Import List Arith Bool Lia ZArith Reals Lra Sorted.
From Verif Require Import Base BaseNum BaseArr BaseNd BaseIdx M_process M_source M_true S_process S_source S_mc S_true S_true3 L_nd L_sdes L_process L_process2 L_source L_true L_true2 L_true3 P_source P_source3 P_true P_true3 P_true5 P_true6 L_true6 L_true7 L_true8 P_true8.
Import ListNotations.
Local Open Scope R_scope.

Lemma bind_go {S A B} (c : S -> res A * S) (f : A -> S -> res B * S) st a st1 : c st = (Ok a, st1) -> dbind c f st = f a st1.
Proof. intro E. unfold dbind. rewrite E. reflexivity. Qed.
Lemma bind_pure {S A B} (r : res A) (f : A -> S -> res B * S) a st : r = Ok a -> dbind (dres r) f st = f a st.
Proof. intros ->. reflexivity. Qed.
Lemma bind_err {S A B} (c : S -> res A * S) (f : A -> S -> res B * S) st e st1 : c st = (Err e, st1) -> dbind c f st = (Err e, st1).
Proof. intro E. unfold dbind. rewrite E. reflexivity. Qed.
(** the assertion of _encode_y *)
Lemma encode_cases zs w n J yy : ndindex zs <> [] -> matches zs n J -> (longest zs J <= w)%nat -> padded zs w J yy ->
  if (most zs J =? most zs (effective J))%nat then exists ys, encode_y n yy = Ok ys else encode_y n yy = Err AssertionError.
Proof.
  intros NE M L [Sy Hy]. unfold encode_y. rewrite (count_max_matches zs n J NE M). cbv beta iota delta [rbind]. rewrite Sy, removelast_last.
  assert (Q : map (nonzeros yy) (ndindex zs) = map (fun r => List.length (effective J r)) (ndindex zs)).
  { apply map_ext_in. intros r I. apply in_ndindex in I. unfold nonzeros. rewrite Sy, last_last. pose proof (longest_ge zs J r I) as Lr.
    replace w with (List.length (J r) + (w - List.length (J r)))%nat at 1 by lia. rewrite seq_app, filter_app, app_length. cbn [plus].
    assert (E2 : filter (fun j => negb (veqb (dat yy (r ++ [j])) nzero)) (seq (List.length (J r)) (w - List.length (J r))) = []).
    { rewrite (filter_ext_in _ (fun _ => false)); [clear; induction (seq (List.length (J r)) (w - List.length (J r))); simpl; auto|]. intros j Ij. apply in_seq in Ij. rewrite Hy by (auto || lia). rewrite nth_overflow by lia. rewrite veqb_refl_R. reflexivity. }
    rewrite E2, Nat.add_0_r. rewrite (filter_ext_in _ (fun j => negb (veqb (nth j (J r) 0) 0))) by (intros j Ij; apply in_seq in Ij; rewrite Hy by (auto || lia); reflexivity).
    unfold effective. clear. induction (J r) as [|a l IH]; auto. cbn [List.length seq filter nth]. rewrite <- seq_shift.
    assert (K : forall l', List.length (filter (fun j => negb (veqb (nth j (a :: l) 0) 0)) (map S l')) = List.length (filter (fun j => negb (veqb (nth j l 0) 0)) l')) by (induction l' as [|x l' IH']; auto; cbn [map filter nth]; destruct (negb (veqb (nth x l 0) 0)); simpl; auto).
    assert (V : negb (veqb a 0) = if Req_EM_T a 0 then false else true). { destruct (Req_EM_T a 0) as [->|N]; [rewrite veqb_refl_R; auto|]. apply negb_true_iff, not_true_iff_false. rewrite veqb_R. auto. }
    rewrite V. destruct (Req_EM_T a 0); cbn [List.length]; rewrite K; [|f_equal]; exact IH. }
  rewrite Q. fold (longest zs J). change (longest zs J) with (most zs J). fold (most zs (effective J)). destruct (_ =? _)%nat; [|reflexivity]. change (most zs J) with (longest zs J). rewrite (present_matches zs n J _ M).
  assert (F : forallb (fun i => forallb (fun r => forallb (fun j => veqb (dat yy (r ++ [j])) nzero) (seq i (last (zs ++ [w]) 0 - i)%nat)) (entries_with n i)) (present zs J (longest zs J)) = true).
  { apply forallb_forall. intros i Ii. rewrite (entries_matches zs n J i M). apply forallb_forall. intros r Ir. apply with_jumps_in in Ir. destruct Ir as [I E]. apply forallb_forall. intros j Ij. rewrite last_last in Ij. apply in_seq in Ij. rewrite Hy by (auto || lia). rewrite nth_overflow by lia. apply veqb_refl_R. }
  rewrite F. eauto.
Qed.

Section C25.
Context {G : Type}.
Variable poisson : arr R -> list nat -> G -> res (arr Z) * G.
Variable binomial : arr Z -> R -> list nat -> G -> res (arr Z) * G.
Variable rvs : R -> nat -> nat -> G -> res (arr R) * G.
Variables (paths : nat) (vshape : list nat) (lam : param R) (dn_rtol rtol d0 : R).
Hypothesis Po : poisson_ok poisson.
Hypothesis Bi : binomial_ok binomial.
Hypothesis Rv : rvs_ok rvs.
Hypothesis rtol_pos : 0 <= rtol.
Hypothesis dn_pos : 0 <= dn_rtol.
Hypothesis dn_calm : calm dn_rtol d0.
Let zs := vshape ++ [paths].
Hypothesis nonempty : ndindex zs <> [].
Local Notation id := (fun n : arr Z => n).
Local Notation nout := (poisson_outside poisson paths vshape lam).
Local Notation nins := (poisson_inside binomial).
Local Notation ndis := (poisson_disciplined poisson binomial paths vshape lam Po Bi).
Local Notation dn := (true_poisson poisson binomial paths vshape lam dn_rtol).
Local Notation dq := (queries id nout nins dn_rtol).
Local Notation cout := (cpoisson_out poisson binomial rvs paths vshape lam dn_rtol).
Local Notation cins := (cpoisson_in poisson binomial paths vshape lam dn_rtol).
Local Notation cdis := (cpoisson_disciplined poisson binomial rvs paths vshape lam dn_rtol).
Local Notation ret := (retrieve1 fst cout cins rtol).
Local Notation eval := (true_cpoisson poisson binomial rvs paths vshape lam dn_rtol rtol).
Local Notation D := (list (R * arr Z) * G)%type.
Local Notation M := (list (R * @cstored R)).
Local Notation DI := (DI paths vshape d0).
Local Notation link := (link rvs paths vshape dn_rtol).
Local Notation cnt := (cnt dn_rtol).
Local Notation CI := (CI rvs paths vshape dn_rtol d0).

(** *** an evaluation between stored times, given the counts *)
Lemma in_cases J z1 z2 t1 t2 s d ns d' : DI d -> shp (fst z1) = zs -> shp (fst z2) = zs -> t1 < s -> s < t2 -> link (fst d) J (t1, z1) (t2, z2) -> (exists e, inb zs e /\ dat (fst z1) e <> dat (fst z2) e) ->
  dn (ascalar s) None d = (Ok ns, d') -> forall n1, cnt (fst d) t1 n1 ->
  let k := fun e => (dat ns e - dat n1 e)%Z in
  if ((most zs (before k (J t1)) =? most zs (effective (before k (J t1)))) && (most zs (after k (J t1)) =? most zs (effective (after k (J t1)))))%nat
  then exists a, cins z1 z2 t1 t2 s d = (Ok a, d') else cins z1 z2 t1 t2 s d = (Err AssertionError, d').
Proof using Po Bi dn_pos dn_calm nonempty.
  intros I S1 S2 L1 L2 (ys & m1 & m2 & Ey & Rec & C1 & C2 & H) (e0 & Ie0 & Ne) Es n1' Cn1' k. cbn [fst snd] in *.
  destruct (dn_one poisson binomial paths vshape lam dn_rtol d0 Po Bi dn_pos dn_calm _ _ _ _ I Es) as (Qs & Sns & Ks). assert (Is := dq_DI poisson binomial paths vshape lam dn_rtol d0 Po Bi dn_pos _ _ Qs I).
  destruct (cnt_count poisson binomial paths vshape lam dn_rtol d0 Po Bi d t1 n1' I Cn1') as (n1 & E1 & H1). unfold count_at in E1.
  assert (C2' := dq_cnt poisson binomial paths vshape lam dn_rtol d0 Po Bi dn_pos _ _ _ _ Qs I C2). destruct (cnt_count poisson binomial paths vshape lam dn_rtol d0 Po Bi d' t2 m2 Is C2') as (n2 & E2 & H2). unfold count_at in E2.
  destruct (dn_one poisson binomial paths vshape lam dn_rtol d0 Po Bi dn_pos dn_calm _ _ _ _ I E1) as (_ & Sn1 & K1). destruct (dn_one poisson binomial paths vshape lam dn_rtol d0 Po Bi dn_pos dn_calm _ _ _ _ Is E2) as (_ & Sn2 & K2).
  assert (D1 := dq_cnt poisson binomial paths vshape lam dn_rtol d0 Po Bi dn_pos _ _ _ _ Qs I K1).
  assert (V1 := cnt_same paths vshape dn_rtol d0 d t1 n1 m1 I K1 C1).
  assert (Le1 := cnt_le paths vshape dn_rtol d0 d' t1 n1 s ns Is D1 Ks ltac:(lra)). assert (Le2 := cnt_le paths vshape dn_rtol d0 d' s ns t2 n2 Is Ks K2 ltac:(lra)).
  assert (Eq : all_equal (veqb (V := R)) (fst z1) (fst z2) = Ok false).
  { destruct (all_equal_spec (veqb (V := R)) (fst z1) (fst z2) zs S1 S2) as [Q _]. unfold all_equal in *. destruct (aop_same (veqb (V := R)) (fst z1) (fst z2) zs S1 S2) as (c & Ec & _). rewrite Ec in *. cbv beta iota delta [rbind] in *. destruct (forallb _ _); auto. exfalso. apply Ne. apply veqb_R. apply Q; auto. }
  destruct (aop_same Z.sub n2 n1 zs Sn2 Sn1) as (n21 & X21 & S21 & H21). destruct (aop_same Z.sub ns n1 zs Sns Sn1) as (ns1 & Xs1 & Ss1 & Hs1). destruct (aop_same Z.sub n2 ns zs Sn2 Sns) as (n2s & X2s & S2s & H2s).
  assert (M21 : matches zs n21 (J t1)). { split; auto. intros e Ie. rewrite H21 by auto. rewrite V1, H2 by auto. apply (H e Ie). }
  assert (Wi : within zs ns1 (J t1)). { intros e Ie. rewrite Hs1 by auto. specialize (Le1 e Ie). specialize (Le2 e Ie). destruct M21 as [_ M21]. rewrite <- M21 by auto. rewrite H21 by auto. lia. }
  destruct (decode_recorded zs n21 (J t1) ys nonempty M21 Rec) as (yy & Xd & Pad).
  assert (P1 := padded_first zs _ ns1 (J t1) yy Wi Pad). assert (P2 := padded_second zs _ ns1 (J t1) yy Wi (Nat.le_refl _) Pad).
  assert (M1 := matches_first zs ns1 (J t1) Ss1 Wi).
  assert (M2 : matches zs n2s (rests ns1 (J t1))). { split; auto. intros e Ie. unfold rests. rewrite skipn_length. destruct M21 as [_ M21]. specialize (M21 e Ie). specialize (Le1 e Ie). specialize (Le2 e Ie). rewrite H21 in M21 by auto. rewrite H2s, Hs1 by auto. lia. }
  assert (B1 := encode_cases zs _ ns1 _ _ nonempty M1 (longest_first zs ns1 (J t1)) P1). assert (B2 := encode_cases zs _ n2s _ _ nonempty M2 (longest_rest zs ns1 (J t1)) P2).
  assert (Most : forall J1 J2, (forall e, inb zs e -> J1 e = J2 e) -> most zs J1 = most zs J2 /\ most zs (effective J1) = most zs (effective J2)).
  { intros J1 J2 EJ. unfold most, effective. split; f_equal; apply map_ext_in; intros e Ie; apply in_ndindex in Ie; rewrite EJ; auto. }
  assert (K : forall e, inb zs e -> dat ns1 e = k e) by (intros e Ie; rewrite Hs1, H1 by auto; reflexivity).
  destruct (Most (before k (J t1)) (firsts ns1 (J t1))) as [-> ->]; [intros e Ie; unfold before, firsts; rewrite K; auto|]. destruct (Most (after k (J t1)) (rests ns1 (J t1))) as [-> ->]; [intros e Ie; unfold after, rests; rewrite K; auto|].
  assert (Run : cins z1 z2 t1 t2 s d = dbind (dres (encode_y ns1 (split_first ns1 yy))) (fun y1' => dbind (dres (encode_y n2s (split_second ns1 (longest zs (J t1)) yy))) (fun yn =>
    dbind (dres (aop nadd (fst z1) (mkArr (removelast (shp yy)) (fun r => nsum (row (split_first ns1 yy) r))))) (fun j => dret ((fst z1, Some y1'), Some (j, Some yn))))) d').
  { unfold cpoisson_in, cpoisson_inside. rewrite (bind_pure _ _ _ _ Eq). cbv iota. rewrite (bind_go _ _ _ _ _ E1), (bind_go _ _ _ _ _ Es), (bind_go _ _ _ _ _ E2). rewrite (bind_pure _ _ _ _ X21), (bind_pure _ _ _ _ Xs1), (bind_pure _ _ _ _ X2s), (bind_pure _ _ _ _ (count_max_matches zs n21 (J t1) nonempty M21)). rewrite Ey. rewrite (bind_pure _ _ _ _ Xd). reflexivity. }
  rewrite Run. clear Run. destruct (_ =? _)%nat; cbn [andb]; [|rewrite B1; reflexivity]. destruct B1 as (y1 & B1). rewrite (bind_pure _ _ _ _ B1). destruct (_ =? _)%nat; [|rewrite B2; reflexivity]. destruct B2 as (y2 & B2). rewrite (bind_pure _ _ _ _ B2).
  destruct (aop_same nadd (fst z1) (mkArr (removelast (shp yy)) (fun r => nsum (row (split_first ns1 yy) r))) zs S1) as (j & Xj & _); [cbn [shp]; rewrite (proj1 Pad); apply removelast_last|]. rewrite (bind_pure _ _ _ _ Xj). eexists. reflexivity.
Qed.

Variables (t0 : R) (z0 : arr R) (m0 : M) (n0 : arr Z) (nm0 : list (R * arr Z)) (ga gb : G) (nm1 : list (R * arr Z)).
Hypothesis Start : true_new (fun j : arr R => (j, None)) zs t0 z0 = Ok m0.
Hypothesis Dn_start : true_new id zs d0 n0 = Ok nm0.
Hypothesis Dn_used : count_history poisson binomial paths vshape lam dn_rtol (nm0, ga) (nm1, gb).
Lemma eval_one s st : forall v st', ret s st = (Ok v, st') -> shp v = zs -> exists x, eval (ascalar s) None st = (Ok x, st') /\ aeq x v.
Proof. intros v st' E S. exact (eval_scalar fst cout cins rtol zs nsub 0 s st v st' E S). Qed.
Lemma eval_err s st : forall e st', ret s st = (Err e, st') -> eval (ascalar s) None st = (Err e, st').
Proof.
  intros e st' E. destruct (eval (ascalar s) None st) as [r st2] eqn:Ev. destruct (retrieve_scalar _ _ _ _ _ _ _ _ _ _ Ev) as (o & Eo & K). assert (Q := eq_trans (eq_sym E) Eo). injection Q as <- <-. rewrite K. reflexivity.
Qed.
(** an evaluation between adjacent times with different values, and a count at that time: it succeeds if and only if, before and after
    it, the entry with most jumps has no less jumps of size different from zero *)
Theorem C25_assertion l t1 j1 y1 t2 j2 y2 r d J s n1 ns d' : chistory poisson binomial rvs paths vshape lam dn_rtol rtol (m0, (nm1, gb)) (l ++ (t1, (j1, y1)) :: (t2, (j2, y2)) :: r, d) ->
  accounts zs (count_at poisson binomial paths vshape lam dn_rtol d) (drawable rvs) (l ++ (t1, (j1, y1)) :: (t2, (j2, y2)) :: r) J ->
  t1 < s -> s < t2 -> ~ close rtol s t1 -> (exists e, inb zs e /\ dat j1 e <> dat j2 e) -> count_at poisson binomial paths vshape lam dn_rtol d t1 n1 -> dn (ascalar s) None d = (Ok ns, d') ->
  let k := fun e => (dat ns e - dat n1 e)%Z in
  if ((most zs (before k (J t1)) =? most zs (effective (before k (J t1)))) && (most zs (after k (J t1)) =? most zs (effective (after k (J t1)))))%nat
  then exists x st', eval (ascalar s) None (l ++ (t1, (j1, y1)) :: (t2, (j2, y2)) :: r, d) = (Ok x, st')
  else eval (ascalar s) None (l ++ (t1, (j1, y1)) :: (t2, (j2, y2)) :: r, d) = (Err AssertionError, (l ++ (t1, (j1, y1)) :: (t2, (j2, y2)) :: r, d')).
Proof using Po Bi Rv rtol_pos dn_pos dn_calm nonempty Start Dn_start Dn_used.
  intros H A L1 L2 Nc Ne C1 Es k. destruct (chistory_Rl poisson binomial rvs paths vshape lam dn_rtol rtol d0 Po Bi Rv rtol_pos dn_pos dn_calm nonempty _ _ H _ (CI_start poisson binomial rvs paths vshape lam dn_rtol d0 Po Bi dn_pos t0 z0 m0 n0 nm0 ga gb nm1 Start Dn_start Dn_used)) as (J0 & (W & I & _) & _). cbn [fst snd] in *.
  assert (CJ : CI J (l ++ (t1, (j1, y1)) :: (t2, (j2, y2)) :: r, d)) by (apply (CI_accounts poisson binomial rvs paths vshape lam dn_rtol d0 Po Bi dn_pos dn_calm); auto). destruct CJ as (_ & _ & Ch & _). cbn [fst snd] in Ch. assert (Lk := proj1 (chain_pair _ _) Ch l _ _ r eq_refl).
  assert (W' := W). destruct W as (_ & S & F). assert (F' := F). apply Forall_app in F'. destruct F' as [_ F']. assert (S1 := Forall_inv F'). assert (S2 := Forall_inv (Forall_inv_tail F')). cbn [snd fst] in S1, S2.
  destruct (dn_one poisson binomial paths vshape lam dn_rtol d0 Po Bi dn_pos dn_calm _ _ _ _ I C1) as (_ & _ & K1).
  pose proof (in_cases J (j1, y1) (j2, y2) t1 t2 s d ns d' I S1 S2 L1 L2 Lk Ne Es n1 K1) as Q. cbv zeta in Q. fold k in Q.
  destruct (sorted_app_cons l t1 (j1, y1) _ S) as [Fl Fr].
  assert (Fa : List.Forall (fun p : R * cstored => fst p <= s) (l ++ [(t1, (j1, y1))]))  by (apply Forall_app; split; [eapply Forall_impl; [|exact Fl]; intros q Hq; exact (Rlt_le _ _ (Rlt_trans _ _ _ Hq L1))|constructor; [exact (Rlt_le _ _ L1)|constructor]]).
  assert (Fb : List.Forall (fun p : R * cstored => s < fst p) ((t2, (j2, y2)) :: r)). { constructor; [exact L2|]. assert (S' : StronglySorted Rlt (map fst ((l ++ [(t1, (j1, y1))]) ++ (t2, (j2, y2)) :: r))) by (rewrite <- app_assoc; exact S). destruct (sorted_app_cons _ _ _ _ S') as [_ Fc]. eapply Forall_impl; [|exact Fc]. intros q Hq. exact (Rlt_trans _ _ _ L2 Hq). }
  pose proof (retrieve1_between fst cout cins rtol l t1 (j1, y1) t2 (j2, y2) r s d Fa Fb) as Rb. replace (isclose rtol s t1) with false in Rb by (symmetry; apply isclose_R_false; auto).
  destruct (_ && _).
  - destruct Q as ([z1' o] & Q). rewrite Q in Rb. destruct o as [zn|].
    + assert (Sv : shp (fst zn) = zs) by (eapply (query_shape fst cout cins rtol zs _ cdis); [exact W'|exact Rb]). destruct (eval_one s _ _ _ Rb Sv) as (x & Ex & _). eauto.
    + destruct (eval_one s _ _ _ Rb S2) as (x & Ex & _). eauto.
  - rewrite Q in Rb. apply eval_err in Rb. exact Rb.
Qed.
(** when the values are the same, whatever the jumps, the same value is given and nothing is generated *)
Theorem C25_equal l t1 j1 y1 t2 j2 y2 r d s : chistory poisson binomial rvs paths vshape lam dn_rtol rtol (m0, (nm1, gb)) (l ++ (t1, (j1, y1)) :: (t2, (j2, y2)) :: r, d) -> t1 < s -> s < t2 -> (forall e, inb zs e -> dat j1 e = dat j2 e) ->
  exists x, eval (ascalar s) None (l ++ (t1, (j1, y1)) :: (t2, (j2, y2)) :: r, d) = (Ok x, (l ++ (t1, (j1, y1)) :: (t2, (j2, y2)) :: r, d)) /\ shp x = zs /\ forall e, inb zs e -> dat x e = dat j2 e.
Proof using Po Bi Rv rtol_pos dn_pos dn_calm nonempty Start Dn_start Dn_used.
  intros H L1 L2 Eq. destruct (chistory_Rl poisson binomial rvs paths vshape lam dn_rtol rtol d0 Po Bi Rv rtol_pos dn_pos dn_calm nonempty _ _ H _ (CI_start poisson binomial rvs paths vshape lam dn_rtol d0 Po Bi dn_pos t0 z0 m0 n0 nm0 ga gb nm1 Start Dn_start Dn_used)) as (J0 & (W & I & _) & _). cbn [fst snd] in *.
  assert (W' := W). destruct W as (_ & S & F). assert (F' := F). apply Forall_app in F'. destruct F' as [_ F']. assert (S1 := Forall_inv F'). assert (S2 := Forall_inv (Forall_inv_tail F')). cbn [snd fst] in S1, S2.
  assert (St : settled fst rtol (fun a b => all_equal (veqb (V := R)) a b = Ok true) (l ++ (t1, (j1, y1)) :: (t2, (j2, y2)) :: r) s j2).
  { exists l, t1, (j1, y1), ((t2, (j2, y2)) :: r). split; auto. split; [lra|]. split.
    - constructor; [exact L2|]. assert (S' : StronglySorted Rlt (map fst ((l ++ [(t1, (j1, y1))]) ++ (t2, (j2, y2)) :: r))) by (rewrite <- app_assoc; exact S). destruct (sorted_app_cons _ _ _ _ S') as [_ Fc]. eapply Forall_impl; [|exact Fc]. intros q Hq. exact (Rlt_trans _ _ _ L2 Hq).
    - right. exists t2, (j2, y2), r. split; auto. split; [|apply aeq_refl]. cbn [fst]. apply (proj2 (all_equal_spec _ j1 j2 zs S1 S2)). intros ix Ix. apply veqb_R. auto. }
  destruct (settled_answer fst cout cins rtol zs _ cdis _ _ _ d W' St) as (v & Ev & Av). assert (Sv : shp v = zs) by exact (eq_trans (proj1 Av) S2). destruct (eval_one s _ _ _ Ev Sv) as (x & Ex & Ax). exists x. split; auto. assert (A := aeq_trans _ _ _ Ax Av). split; [exact (eq_trans (proj1 Ax) Sv)|]. intros e Ie. apply A. destruct Ax as [-> _]. rewrite Sv. auto.
Qed.

(** *** success *)
Hypothesis Bt : binomial_total binomial.
Hypothesis Lam : intensity_ok zs lam.
Hypothesis Rtot : forall tm m j g, exists y g', rvs tm m j g = (Ok y, g').
Hypothesis Nonzero : forall x, drawable rvs x -> x <> 0.
Lemma out_succeeds z t s d : DI d -> shp (fst z) = zs -> exists a d', cout z t s d = (Ok a, d').
Proof using Po Bi Bt Lam Rtot Rv nonempty dn_pos dn_calm.
  intros [Iv Id] Sz. destruct (call_succeeds poisson binomial paths vshape lam Po Bi Bt Lam dn_rtol dn_pos (mkArr [] (bget (ascalar t)), Some (mkArr [] (bget (ascalar (nsub s t))))) ltac:(discriminate) d Iv) as (n & d1 & En & _). cbn [fst snd] in En.
  destruct (dn_two poisson binomial paths vshape lam dn_rtol d0 Po Bi dn_pos dn_calm _ _ _ _ _ (conj Iv Id) En) as (_ & Sn & _).
  destruct (C31_succeeds (fun t m j => with_memory (rvs t m j)) (fun t dt => dn t (Some dt)) paths vshape (ascalar t) (ascalar (nsub s t)) [] d eq_refl) as (dj & n' & ys & d2 & Ec); [|exists n, d1; split; [exact En|exact Sn]|exact nonempty|].
  { intros tm m j [nm g]. destruct (Rtot tm m j g) as (y & g' & Y). exists y, (nm, g'). unfold with_memory. rewrite Y. reflexivity. }
  destruct (call_recorded (fun t m j => with_memory (rvs t m j)) (rvs_memory_ok rvs Rv) (fun t dt => dn t (Some dt)) paths vshape t (nsub s t) d dj n' ys d2 Ec) as (_ & _ & Sj & _).
  destruct (aop_same nadd (fst z) dj zs Sz Sj) as (j & Ej & _). unfold cpoisson_out, cpoisson_outside. rewrite (bind_go _ _ _ _ _ Ec). cbv beta iota. rewrite (bind_pure _ _ _ _ Ej). destruct (nlt t s); unfold dret; eauto.
Qed.
Lemma effective_all (J : list nat -> list R) : (forall e, inb zs e -> List.Forall (fun x => x <> 0) (J e)) -> most zs J = most zs (effective J).
Proof.
  intro H. unfold most. f_equal. apply map_ext_in. intros e Ie. apply in_ndindex in Ie. specialize (H e Ie). unfold effective. f_equal. clear - H. induction H as [|a l N F IH]; auto. cbn [filter]. destruct (Req_EM_T a 0); [contradiction|]. f_equal. exact IH.
Qed.
Lemma ret_succeeds s st : (exists J, CI J st) -> exists v st', ret s st = (Ok v, st') /\ shp v = zs.
Proof using Po Bi Bt Lam Rtot Rv Nonzero nonempty dn_pos dn_calm rtol_pos.
  intros (J & CJ). destruct st as [m d]. destruct CJ as (W & I & C & _). cbn [fst snd] in *. assert (W' := W).
  enough (X : exists v st', ret s (m, d) = (Ok v, st')). { destruct X as (v & [m1 d1] & E). exists v, (m1, d1). split; auto. eapply (query_shape fst cout cins rtol zs _ cdis); [exact W'|exact E]. }
  destruct W as (Nm & S & F). destruct (sorted_split m s S) as (l1 & l2 & -> & F1 & F2). destruct l1 as [|p1 l1'].
  - destruct l2 as [|[t2 z2] l3]; [elim Nm; auto|]. cbn [app] in *. destruct (memory_snoc ((t2, z2) :: l3)) as (l & [tl zl] & El); [discriminate|]. pose proof (retrieve1_start fst cout cins rtol t2 z2 l3 l tl zl s d F2 El) as Q. destruct (isclose rtol s tl); [eauto|]. destruct (out_succeeds z2 t2 s d I (Forall_inv F)) as ([a b] & d' & E). rewrite E in Q. eauto.
  - destruct (memory_snoc (p1 :: l1')) as (l & [tk zk] & El); [discriminate|]. rewrite El in *. clear p1 l1' El. assert (L : tk <= s) by (apply Forall_app in F1; destruct F1 as [_ F1]; inversion F1; auto). destruct l2 as [|[t2 z2] l3].
    + rewrite app_nil_r in *. pose proof (retrieve1_end fst cout cins rtol l tk zk s d F1) as Q. destruct (isclose rtol s tk) eqn:Cl; [eauto|]. assert (Fk : shp (fst zk) = zs) by (apply Forall_app in F; apply (Forall_inv (proj2 F))). destruct (out_succeeds zk tk s d I Fk) as ([a b] & d' & E). rewrite E in Q. eauto.
    + rewrite <- app_assoc in *. cbn [app] in *. pose proof (retrieve1_between fst cout cins rtol l tk zk t2 z2 l3 s d F1 F2) as Q. destruct (isclose rtol s tk) eqn:Cl; [eauto|]. assert (Lt : tk < s) by (apply (not_close_lt rtol rtol_pos); auto; apply isclose_R_false; auto). assert (Lt2 : s < t2) by apply (Forall_inv F2).
      assert (F' := F). apply Forall_app in F'. destruct F' as [_ F']. assert (S1 := Forall_inv F'). assert (S2 := Forall_inv (Forall_inv_tail F')). cbn [snd fst] in S1, S2. assert (Lk := proj1 (chain_pair _ _) C l _ _ l3 eq_refl).
      destruct (all_equal (veqb (V := R)) (fst zk) (fst z2)) as [[]|e] eqn:Eq.
      * rewrite (dis_same _ _ _ _ _ cdis zk z2 tk t2 s d Eq) in Q. eauto.
      * assert (Ne : exists e, inb zs e /\ dat (fst zk) e <> dat (fst z2) e).
        { destruct (List.Forall_Exists_dec (fun e => dat (fst zk) e = dat (fst z2) e) (fun e => Req_EM_T _ _) (ndindex zs)) as [Fa|Ex].
          - exfalso. assert (X : all_equal (veqb (V := R)) (fst zk) (fst z2) = Ok true); [|congruence]. apply (proj2 (all_equal_spec _ _ _ zs S1 S2)). intros ix Ix. apply veqb_R. rewrite Forall_forall in Fa. apply Fa, in_ndindex; auto.
          - apply Exists_exists in Ex. destruct Ex as (e & Ie & N). apply in_ndindex in Ie. eauto. }
        destruct (call_succeeds poisson binomial paths vshape lam Po Bi Bt Lam dn_rtol dn_pos (ascalar s, None) ltac:(exact Logic.I) d (proj1 I)) as (ns & d' & En & _). cbn [fst snd] in En.
        assert (Lk' := Lk). destruct Lk' as (ys & n1 & n2 & _ & _ & C1 & _ & Hn). cbn [fst snd] in *.
        pose proof (in_cases J zk z2 tk t2 s d ns d' I S1 S2 Lt Lt2 Lk Ne En n1 C1) as K. cbv zeta in K. set (k := fun e => (dat ns e - dat n1 e)%Z) in *.
        rewrite (effective_all (before k (J tk))), (effective_all (after k (J tk))), !Nat.eqb_refl in K.
        -- cbn [andb] in K. destruct K as ([a o] & K). rewrite K in Q. destruct o; eauto.
        -- intros e Ie. destruct (Hn e Ie) as (_ & _ & Fd). apply Forall_forall. intros x Ix. apply Nonzero. rewrite Forall_forall in Fd. apply Fd. rewrite <- (firstn_skipn (Z.to_nat (k e)) (J tk e)). apply in_or_app. auto.
        -- intros e Ie. destruct (Hn e Ie) as (_ & _ & Fd). apply Forall_forall. intros x Ix. apply Nonzero. rewrite Forall_forall in Fd. apply Fd. rewrite <- (firstn_skipn (Z.to_nat (k e)) (J tk e)). apply in_or_app. auto.
      * exfalso. unfold all_equal in Eq. destruct (aop_same (veqb (V := R)) (fst zk) (fst z2) zs S1 S2) as (c & Ec & _). rewrite Ec in Eq. discriminate.
Qed.
Local Notation Inv := (fun st => exists J, CI J st).
Lemma cret_succeeding s : succeeding Inv (fun v => shp v = zs) (ret s).
Proof using Po Bi Bt Lam Rtot Rv Nonzero nonempty dn_pos dn_calm rtol_pos.
  intros st I. destruct (ret_succeeds s st I) as (v & st' & E & S). exists v, st'. split; auto. split; auto. destruct I as (J & C). destruct (step poisson binomial rvs paths vshape lam dn_rtol rtol d0 Po Bi Rv rtol_pos dn_pos dn_calm nonempty s st _ st' E J C) as (J' & C' & _). eauto.
Qed.
Lemma ccall_succeeds c : well_shaped c -> succeeding Inv (fun _ : arr R => True) (eval (fst c) (snd c)).
Proof using Po Bi Bt Lam Rtot Rv Nonzero nonempty dn_pos dn_calm rtol_pos.
  assert (Rt : forall s, succeeding Inv (fun v : arr R => shp v = shp s ++ zs) (retrieve fst cout cins rtol 0 zs s)).
  { intro s. unfold retrieve. apply succeeding_bind with (P := fun _ => True).
    - apply succeeding_each. intro i. apply succeeding_bind with (P := fun v : arr R => shp v = zs); [apply cret_succeeding|]. intros v Sv. destruct (broadcast_shape zs v Sv) as (u & E & _). apply (succeeding_pure Inv _ u); auto.
    - intros l _. apply (succeeding_pure Inv _ (assembled 0 (shp s) zs l) (Ok (assembled 0 (shp s) zs l))); auto. }
  destruct c as [t [dt|]]; intro Ws; cbn [fst snd].
  - unfold well_shaped in Ws. cbn [fst snd] in Ws. destruct (bshape (shp t) (shp dt)) as [w|] eqn:B; [|tauto]. unfold true_cpoisson, true_call. apply succeeding_bind with (P := fun p => p = (mkArr w (bget t), mkArr w (bget dt))); [apply (succeeding_pure Inv _ (mkArr w (bget t), mkArr w (bget dt))); auto; unfold broadcast2; rewrite B; auto|]. intros p ->.
    destruct (aop_same nadd (mkArr w (bget t)) (mkArr w (bget dt)) w eq_refl eq_refl) as (s & Es & Ss & _). apply succeeding_bind with (P := fun x => x = s); [apply (succeeding_pure Inv _ s); auto|]. intros x ->.
    apply succeeding_bind with (P := fun v : arr R => shp v = w ++ zs); [rewrite <- Ss; apply Rt|]. intros x Sx. apply succeeding_bind with (P := fun v : arr R => shp v = w ++ zs); [apply (Rt (mkArr w (bget t)))|]. intros y Sy. destruct (aop_same nsub x y _ Sx Sy) as (v & Ev & _). apply (succeeding_pure Inv _ v); auto.
  - intros st I. destruct (Rt t st I) as (a & st' & E & I' & _). exists a, st'. auto.
Qed.
(** if jumps are never zero all evaluations succeed *)
Theorem C25_succeeds calls : Forall2 (fun c r => well_shaped c -> exists x, r = Ok x) calls (fst (run (fun c => eval (fst c) (snd c)) calls (m0, (nm1, gb)))).
Proof using Po Bi Bt Lam Rtot Rv Nonzero nonempty dn_pos dn_calm rtol_pos Start Dn_start Dn_used.
  enough (K : forall st, Inv st -> Forall2 (fun c r => well_shaped c -> exists n, r = Ok n) calls (fst (run (fun c => eval (fst c) (snd c)) calls st))).
  { apply (K (m0, (nm1, gb))). eexists. eapply (CI_start poisson binomial rvs paths vshape lam dn_rtol d0 Po Bi dn_pos); eauto. }
  induction calls as [|c l IH]; intros st I; [constructor|]. cbn [run]. destruct (eval (fst c) (snd c) st) as [r st1] eqn:E.
  assert (J : Inv st1). { destruct I as (J & C). destruct (closed_call fst cout cins rtol nsub 0 zs _ (Rl_refl rvs paths vshape dn_rtol d0) (Rl_trans rvs paths vshape dn_rtol d0) (step poisson binomial rvs paths vshape lam dn_rtol rtol d0 Po Bi Rv rtol_pos dn_pos dn_calm nonempty) (fst c) (snd c) st r st1 E J C) as (J' & C' & _). eauto. }
  specialize (IH st1 J). destruct (run _ l st1) as [rs st2]. constructor; auto. intro W. destruct (ccall_succeeds c W st I) as (a & st' & E' & _). exists a. congruence.
Qed.
End C25.
