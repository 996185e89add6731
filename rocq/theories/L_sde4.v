(** Lemmas on undeclared and missing differentials, initial values. *)
From Coq Require Import String List Arith Bool ZArith Reals Lra Lia Sorting.Sorted.
From Verif Require Import Base BaseOrd BaseNum BaseArr M_paths S_paths S_run L_ord L_paths8
  M_sde S_sde L_sde L_sde2 L_sde3.
Import ListNotations.

(** *** sums over differentials, real numbers *)
Section Sum.
Open Scope R_scope.
Lemma fold_left_Rplus l : forall a, fold_left Rplus l a = a + Rlsum l.
Proof. induction l as [|x l IH]; intro a; simpl; [lra|]. rewrite IH. lra. Qed.

Lemma sum_add_key k v zs (g : string -> R) ix : NoDup (keys zs) -> forall z, In (k, z) zs -> g k = 0 ->
  Rlsum (map (fun '(id, z) => (if String.eqb id k then v else g id) * bget z ix) zs) =
  v * bget z ix + Rlsum (map (fun '(id, z) => g id * bget (V := R) z ix) zs).
Proof.
  induction zs as [|[id z'] zs IH]; intros ND z HI HG; [destruct HI|].
  simpl in ND. inversion_clear ND as [|? ? NI ND']. destruct HI as [E|HI].
  - injection E as -> ->. simpl. rewrite String.eqb_refl, HG.
    assert (E : map (fun '(id, z) => (if String.eqb id k then v else g id) * bget z ix) zs =
                map (fun '(id, z) => g id * bget (V := R) z ix) zs).
    { apply map_ext_in. intros [id z1] H. destruct (String.eqb_spec id k); auto. subst.
      exfalso. apply NI. apply in_map_iff. exists (k, z1). auto. }
    rewrite E. lra.
  - simpl. rewrite (IH ND' z HI HG). destruct (String.eqb_spec id k) as [->|].
    + exfalso. apply NI. apply in_map_iff. exists (k, z). auto.
    + lra.
Qed.

Lemma increment_all (A : dict (arr R)) zs ix d : NoDup (keys A) -> NoDup (keys zs) ->
  increment A zs ix d -> d = Rlsum (map (fun '(id, z) => coef A id ix * bget z ix) zs).
Proof.
  intros NA NZ (terms & F & ->). rewrite fold_left_Rplus. simpl. rewrite Rplus_0_l.
  revert terms F. induction A as [|[k c] A IH]; intros terms F.
  - inversion F; subst. simpl. unfold coef. simpl. clear. induction zs as [|[id z] zs IH]; simpl; [auto|lra].
  - inversion F as [|? p ? ps H F']; subst. simpl in H. destruct H as (z & Hz & ->).
    inversion_clear NA as [|? ? NI NA']. simpl. rewrite (IH NA' ps F').
    unfold coef at 2. cbn [lookup].
    rewrite <- (sum_add_key k (bget c ix) zs (fun id => coef A id ix) ix NZ z Hz).
    + f_equal. apply map_ext. intros [id z1]. destruct (String.eqb_spec id k); auto.
    + unfold coef. destruct (lookup k A) as [c'|] eqn:E; auto. exfalso. apply NI.
      apply lookup_In in E. apply in_map_iff. exists (k, c'). auto.
Qed.

Lemma sorted_nodup ids : StronglySorted str_lt ids -> NoDup ids.
Proof.
  induction 1 as [|a l S IH F]; constructor; auto. intro HI. rewrite Forall_forall in F.
  specialize (F a HI). unfold str_lt in F. pose proof (String.compare_antisym a a) as CA.
  rewrite F in CA. discriminate.
Qed.

Lemma draws_keys {T V Wd I} {NV : Num V} (ig : integ T V Wd I) t dt ids wd wd' zs :
  draws ig t dt ids wd wd' zs -> keys zs = ids.
Proof. induction 1; simpl; auto. f_equal. auto. Qed.
End Sum.

Section K.
Context {T : Type} {TO : TOrd T} {TL : TOrdLaws T} {V : Type} {NV : Num V} {Wd I : Type}.
Variable tsub : T -> T -> V.
Variable ig : integ T V Wd I.
Notation cb := (sde_cb tsub ig).

(** a run of an sde that keeps failing the same way *)
Section Fails.
Variable e : exn.
Hypothesis HA : forall t x, ig_A ig t (mkArr (ig_w ig) x) = Err e.
Hypothesis HI : forall t, exists x, ig_init ig t = Ok x.
Hypothesis HL : forall t x, exists y, ig_let ig t x = Ok y.
Hypothesis HE : forall iv i, exists i', ig_info_end ig iv i = Ok i'.

Lemma ref_pass_fails rv t0 tl' t todo s : teqb t t = true -> teqb t t0 = true ->
  (todo = [] /\ exists s' ys, ref_pass cb rv (t0 :: tl') (t :: todo) s = Ok (s', ys)) \/
  (todo <> [] /\ ref_pass cb rv (t0 :: tl') (t :: todo) s = Err e).
Proof using HA HE HI HL.
  intros E1 E2. unfold ref_pass. cbn [cb_begin cb_store cb_end cb sde_cb].
  unfold sde_begin. cbn [iv_steps iv_tt]. rewrite E1, E2. cbn [andb].
  destruct (HI t) as (x & ->). cbn [rbind map].
  unfold sde_store.
  match goal with |- context [ig_let ig t ?z] => destruct (HL t z) as (y & EY) end. rewrite EY. cbn [rbind].
  destruct todo as [|t' todo].
  - left. split; auto. cbn [ref_steps]. unfold sde_end. cbn [snd fst].
    destruct (ig_getinfo ig).
    + match goal with |- context [ig_info_end ig ?a ?b] => destruct (HE a b) as (i' & ->) end. cbn [rbind]. eauto.
    + cbn [rbind]. eauto.
  - right. split; [discriminate|]. cbn [ref_steps cb_next sde_cb]. unfold sde_next.
    rewrite euler_next_err with (e := e) by apply HA. reflexivity.
Qed.

Lemma sde_call_fails i0 pace_fn fuel s (timeline : list T) p0 :
  valid_timeline timeline -> start_index (length timeline) i0 p0 -> 2 <= length timeline ->
  length timeline + length (pace_fn timeline) <= fuel ->
  sde_call tsub ig i0 pace_fn fuel s [length timeline] timeline = Err e.
Proof using HA HE HI HL TL.
  intros V0 SI L2 HF.
  assert (LT : p0 < length timeline) by (unfold start_index in SI; lia).
  destruct (nth_error timeline p0) as [t0|] eqn:N0; [|apply nth_error_None in N0; lia].
  rewrite (sde_call_ref tsub ig _ _ _ _ _ p0 t0) by auto.
  destruct (call_refines_grid cb i0 (ig_getinfo ig) pace_fn fuel s timeline p0 t0 _ _ eq_refl eq_refl
    (sde_nonadaptive _ _) (sde_begin_fills _ _) V0 SI N0 HF) as (GB & GF & _ & _).
  assert (I0 : In t0 timeline) by (eapply nth_error_In; eauto).
  assert (NT : isnum t0). { destruct V0 as (_ & NT & _). rewrite Forall_forall in NT. auto. }
  destruct (grid_head _ _ _ _ _ NT (InT_In _ _ NT I0) GB) as (sb & gb' & EB & TB).
  destruct (grid_head _ _ _ _ _ NT (InT_In _ _ NT I0) GF) as (sf & gf' & EF & TF).
  destruct (nth_error_split _ _ N0) as (t1 & t2 & ET & L1).
  assert (FN : rev (firstn (p0 + 1) timeline) = t0 :: rev t1).
  { rewrite ET, firstn_app, L1. replace (p0 + 1 - p0) with 1 by lia.
    rewrite firstn_all2 by lia. simpl. rewrite rev_app_distr. reflexivity. }
  assert (SN : skipn p0 timeline = t0 :: t2).
  { rewrite ET, skipn_app, L1, Nat.sub_diag. rewrite skipn_all2 by lia. reflexivity. }
  rewrite EB, EF in *.
  assert (REF : forall a b, teqb a b = true -> teqb a a = true).
  { intros a b H. eapply teq_trans; [exact H|apply teq_sym; exact H]. }
  destruct V0 as (_ & NM & SO).
  (* a grid of one point only covers t0 *)
  assert (ONE : forall rv g, g = [] -> forall s0 u, grid_spec rv timeline (pace_fn timeline) t0 (s0 :: g) ->
            teqb s0 t0 = true -> In u timeline -> ~ before rv t0 u).
  { intros rv g -> s0 u G ES HU B. destruct G as [_ G].
    assert (NU : isnum u) by (rewrite Forall_forall in NM; auto).
    assert (J : InT u [s0]).
    { apply G. split; [left; apply InT_In; auto|]. right; exact B. }
    destruct J as (v & [<-|[]] & EV).
    apply (before_irrefl rv t0 u); auto. apply teq_sym. eapply teq_trans; eauto. }
  assert (FWD : p0 = 0 -> gf' <> []).
  { intros -> G. destruct t1; [|discriminate]. destruct t2 as [|u t2]; [rewrite ET in L2; simpl in L2; lia|].
    apply (ONE false gf' G sf u GF TF).
    - rewrite ET. right; left; auto.
    - rewrite ET in SO. simpl in SO. inversion_clear SO as [|? ? _ FF]. inversion FF; auto. }
  unfold ref_run. rewrite FN, SN.
  destruct (Z.eqb_spec i0 0) as [->|NZ]; cbn [negb orb].
  { destruct (ref_pass_fails false t0 t2 sf gf' s (REF _ _ TF) TF) as [[G _]|[_ E]].
    - exfalso. apply FWD; auto. unfold start_index in SI. lia.
    - rewrite E. reflexivity. }
  destruct (ref_pass_fails true t0 (rev t1) sb gb' s (REF _ _ TB) TB) as [[GB0 (s1 & yb & E1)]|[_ E1]];
    rewrite E1; [|reflexivity].
  assert (P0 : p0 = 0).
  { destruct t1 as [|u t1]; [auto|]. exfalso. apply (ONE true gb' GB0 sb u GB TB).
    - rewrite ET. left; auto.
    - rewrite ET in SO. simpl in SO. inversion_clear SO as [|? ? _ FF]. rewrite Forall_forall in FF.
      apply FF. apply in_or_app. right. left. auto. }
  assert (Z1 : (i0 =? -1)%Z = false) by (unfold start_index in SI; lia).
  assert (Z2 : (i0 =? Z.of_nat (length timeline) - 1)%Z = false) by (unfold start_index in SI; lia).
  rewrite Z1, Z2. cbn [negb orb].
  destruct (ref_pass_fails false t0 t2 sf gf' s1 (REF _ _ TF) TF) as [[G _]|[_ E]].
  - exfalso. apply FWD; auto.
  - rewrite E. reflexivity.
Qed.
End Fails.

(** a run of one equation that ends only evaluated declared differentials *)
Lemma run_declared ids args sde i0 pace_fn fuel wd inf (timeline : list T) p0 t0 wd' inf' xx :
  ig_A ig = sde_A ids args sde ->
  valid_timeline timeline -> start_index (length timeline) i0 p0 -> nth_error timeline p0 = Some t0 ->
  length timeline + length (pace_fn timeline) <= fuel ->
  sde_call tsub ig i0 pace_fn fuel (wd, inf) [length timeline] timeline = Ok ((wd', inf'), xx) ->
  run_of ig (fun wd t t' x wd' x' => next_step tsub ig wd t t' x wd' x' /\
               exists d, sde t (mkArr (ig_w ig) x) (map (fun '(k, z) => (k, peval t z)) args) = Ok (RDict d) /\
                         incl (keys d) ids)
         timeline (pace_fn timeline) i0 p0 t0 wd wd' xx.
Proof using TL.
  intros EA V0 SI N0 HF H. apply (sde_call_run _ _ _ _ _ _ _ _ p0 t0) in H; auto.
  eapply run_imp; [|exact H]. intros wd0 t t' x wd1 x' ST. split; auto.
  unfold next_step, euler_next in ST. rewrite EA in ST. unfold sde_A in ST.
  destruct (sde t _ _) as [v|]; cbn [rbind] in ST; [|discriminate].
  destruct (check_dict ids v) as [d|] eqn:E; cbn [rbind] in ST; [|discriminate].
  apply check_dict_ok in E. destruct E as [-> E]. eauto.
Qed.

(** the value returned at the starting point is the initial one *)
Lemma start_value w x0 i0 pace_fn fuel wd inf (timeline : list T) p0 t0 wd' inf' xx :
  ig_w ig = w -> ig_init ig = sde_init w x0 -> ig_let ig = sde_let w w ->
  valid_timeline timeline -> start_index (length timeline) i0 p0 -> nth_error timeline p0 = Some t0 ->
  length timeline + length (pace_fn timeline) <= fuel ->
  sde_call tsub ig i0 pace_fn fuel (wd, inf) [length timeline] timeline = Ok ((wd', inf'), xx) ->
  exists y, nth_error xx p0 = Some (Some y) /\
    forall ix, inb w ix -> y ix = if ig_log ig then nexp (nlog (bget x0 ix)) else bget x0 ix.
Proof using TL.
  intros EW EI EL V0 SI N0 HF H. apply (sde_call_run _ _ _ _ _ _ _ _ p0 t0) in H; auto.
  destruct (run_start ig (next_step tsub ig) _ _ _ _ _ _ _ _ V0 SI N0 H) as (t & x & y & ET & E1 & E2 & E3).
  rewrite EI in E1. rewrite EL in E2. unfold sde_init in E1. unfold sde_let in E2.
  apply assign_ok in E1. destruct E1 as [-> _]. apply assign_ok in E2. destruct E2 as [-> _].
  exists (fin ig (bget (mkArr w (logi ig (bget x0))))). split; auto. intros ix HX.
  assert (E : bget (mkArr w (logi ig (bget x0))) ix = logi ig (bget x0) ix) by (rewrite bget_self; auto).
  unfold fin. destruct (ig_log ig) eqn:LG.
  - rewrite E. unfold logi. rewrite LG. reflexivity.
  - rewrite E. unfold logi. rewrite LG. reflexivity.
Qed.
End K.
