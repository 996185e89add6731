(** Integration of SDEs: no failure with well behaved components; failures of
    components are reported exactly. *)
From Coq Require Import String List Arith Bool ZArith Lia Sorting.Sorted.
From Verif Require Import Base BaseOrd BaseNum BaseArr M_paths S_paths S_run L_ord L_paths8 M_sde S_sde L_sde.
Import ListNotations.

Section L.
Context {T : Type} {TO : TOrd T} {TL : TOrdLaws T}.

Lemma grid_head rv (timeline pc : list T) t0 g : isnum t0 -> InT t0 timeline -> grid_spec rv timeline pc t0 g ->
  exists s g', g = s :: g' /\ teqb s t0 = true.
Proof.
  intros N HI [S G]. assert (H0 : InT t0 g) by (apply G; split; auto).
  destruct g as [|s g']; [apply InT_nil in H0; tauto|]. exists s, g'. split; auto.
  assert (Hs : isnum s).
  { apply InT_cons in H0. destruct H0 as [H0|(b & Hb & _)]; [eapply teq_num_r; eauto|].
    inversion_clear S as [|? ? _ F]. rewrite Forall_forall in F. apply (before_num rv _ _ (F b Hb)). }
  destruct (proj1 (G s)) as [_ [E|E]]; [apply InT_cons; auto|apply teq_sym; auto|].
  exfalso. apply InT_cons in H0. destruct H0 as [H0|(b & Hb & E2)].
  - exact (before_irrefl rv _ _ H0 E).
  - inversion_clear S as [|? ? _ F]. rewrite Forall_forall in F. specialize (F b Hb).
    rewrite (before_eq_l rv _ _ s E2) in E. eapply before_asym; eauto.
Qed.

Context {V : Type} {NV : Num V} {Wd I : Type}.
Variable tsub : T -> T -> V.
Variable ig : integ T V Wd I.
Notation cb := (sde_cb tsub ig).
Variable Adm : Wd -> Prop.
Hypothesis TI : total_integ ig Adm.

Lemma eval_sources_total ids : (forall id, In id ids -> In id (ig_ids ig)) -> forall wd t dt, Adm wd ->
  exists wd' d, eval_sources ig ids wd t dt = Ok (wd', d) /\ keys d = ids /\ Adm wd' /\
    Forall (fun '(id, z) => can (shp z) (ig_w ig) = true) d.
Proof using TI.
  induction ids as [|id ids IH]; intros H wd t dt AD; simpl; [eauto 6|].
  destruct (tot_src _ _ TI id wd t dt) as (wd1 & z & -> & C & AD1); [apply H; simpl; auto|auto|]. simpl.
  destruct (IH (fun k Hk => H k (or_intror Hk)) wd1 t dt AD1) as (wd2 & d & -> & K & AD2 & F). simpl.
  do 2 eexists. split; [reflexivity|]. split; [simpl; congruence|]. split; auto.
Qed.

Lemma euler_sum_total dz A : Forall (fun '(id, z) => can (shp z) (ig_w ig) = true) dz ->
  Forall (fun '(id, c) => In id (keys dz) /\ can (shp c) (ig_w ig) = true) A ->
  forall acc, can (shp acc) (ig_w ig) = true ->
  exists sm, euler_sum acc A dz = Ok sm /\ can (shp sm) (ig_w ig) = true.
Proof using Type.
  intros FZ. induction A as [|[id a] A IH]; intros FA acc C; simpl; [eauto|].
  inversion_clear FA as [|? ? H1 FA']. cbn in H1. destruct H1 as [HK HC].
  destruct (lookup_some _ _ HK) as (z & E). rewrite E.
  assert (CZ : can (shp z) (ig_w ig) = true).
  { apply lookup_In in E. rewrite Forall_forall in FZ. apply (FZ _ E). }
  destruct (aop_ok nmul _ _ _ HC CZ) as (p & -> & CP). simpl.
  destruct (aop_ok nadd _ _ _ C CP) as (acc' & -> & CA). simpl. auto.
Qed.

Lemma euler_next_total wd s s' x : Adm wd -> exists wd' x', euler_next tsub ig wd s s' x = Ok (wd', x') /\ Adm wd'.
Proof using TI.
  intro AD. unfold euler_next. destruct (tot_A _ _ TI s x) as (A & -> & FA). simpl. unfold dZ.
  destruct (eval_sources_total (ssort (ig_ids ig))) with (wd := wd) (t := s) (dt := tsub s' s)
    as (wd' & dz & -> & K & AD' & FZ); [intros id; apply ssort_In|auto|]. simpl.
  destruct (euler_sum_total dz A FZ) with (acc := ascalar nzero) as (sm & -> & CS); [|apply can_nil|].
  { eapply Forall_impl; [|exact FA]. intros [id c] [H1 H2]. split; auto. rewrite K. apply ssort_In; auto. }
  simpl. destruct (aop_ok nadd (mkArr (ig_w ig) x) sm (ig_w ig) (can_refl _) CS) as (r & -> & CR). simpl.
  rewrite assign_can by auto. simpl. eauto.
Qed.

Lemma ref_steps_total rv tl grid todo : forall i s t x, Adm (fst s) ->
  exists s' ys, ref_steps cb rv tl grid i s t x todo = Ok (s', ys) /\ Adm (fst s').
Proof using TI.
  induction todo as [|t' todo IH]; intros i s t x AD; cbn [ref_steps]; [eauto|].
  simpl cb_next. unfold sde_next.
  destruct (euler_next_total (fst s) t t' x AD) as (wd' & x' & -> & AD1). cbn [rbind].
  assert (exists inf, (if ig_getinfo ig then ig_info_next ig (mkIv grid tl rv i) wd' x (snd s) else Ok (snd s)) = Ok inf)
    as (inf & ->).
  { destruct (ig_getinfo ig); eauto. apply (tot_inext _ _ TI). }
  cbn [rbind]. destruct (memT t' tl); [|apply IH; auto].
  simpl cb_store. unfold sde_store. destruct (tot_let _ _ TI t' x') as (y & ->). cbn [rbind].
  match goal with |- context [ref_steps _ _ _ _ _ ?s2 _ _ _] => destruct (IH (S i) s2 t' x') as (s' & ys & E & AD2) end; auto.
  rewrite E. eauto.
Qed.

Lemma ref_pass_total rv t1 tl t todo s : Adm (fst s) -> teqb t t1 = true -> exists s' ys,
  ref_pass cb rv (t1 :: tl) (t :: todo) s = Ok (s', ys) /\ Adm (fst s').
Proof using TI TL.
  intros AD E. unfold ref_pass. simpl cb_begin. unfold sde_begin. cbn [iv_steps iv_tt].
  rewrite (teq_num_l _ _ E), E. cbn [andb].
  destruct (tot_init _ _ TI t) as (x & ->). cbn [rbind map].
  simpl cb_store. unfold sde_store.
  cbv zeta. match goal with |- context [ig_let ig t ?z] => destruct (tot_let _ _ TI t z) as (y & ->) end. cbn [rbind].
  match goal with |- context [ref_steps _ ?a ?b ?c ?d ?s2 ?e ?f ?g] =>
    destruct (ref_steps_total a b c g d s2 e f) as (s' & ys & E2 & AD2) end; auto.
  rewrite E2. simpl cb_end. unfold sde_end.
  destruct (ig_getinfo ig); [|cbn [rbind]; eauto].
  match goal with |- context [ig_info_end ig ?a ?b] => destruct (tot_iend _ _ TI a b) as (inf & ->) end.
  cbn [rbind]. eauto.
Qed.

Theorem sde_call_total i0 pace_fn fuel s (timeline : list T) p0 : Adm (fst s) ->
  valid_timeline timeline -> start_index (length timeline) i0 p0 ->
  length timeline + length (pace_fn timeline) <= fuel ->
  exists s' xx, sde_call tsub ig i0 pace_fn fuel s [length timeline] timeline = Ok (s', xx).
Proof using TI TL.
  intros AD V0 SI HF.
  assert (LT : p0 < length timeline) by (unfold start_index in SI; lia).
  destruct (nth_error timeline p0) as [t0|] eqn:N0; [|apply nth_error_None in N0; lia].
  rewrite (sde_call_ref tsub ig _ _ _ _ _ p0 t0) by auto.
  destruct (call_refines_grid cb i0 (ig_getinfo ig) pace_fn fuel s timeline p0 t0 _ _ eq_refl eq_refl
    (sde_nonadaptive _ _) (sde_begin_fills _ _) V0 SI N0 HF) as (GB & GF & _ & _).
  assert (I0 : In t0 timeline) by (eapply nth_error_In; eauto).
  assert (NT : isnum t0). { destruct V0 as (_ & NT & _). rewrite Forall_forall in NT. auto. }
  destruct (grid_head _ _ _ _ _ NT (InT_In _ _ NT I0) GB) as (sb & gb' & EB & TB).
  destruct (grid_head _ _ _ _ _ NT (InT_In _ _ NT I0) GF) as (sf & gf' & EF & TF).
  destruct (nth_error_split _ _ N0) as (t1 & t2 & ET & L1).
  assert (FN : rev (firstn (p0 + 1) timeline) = t0 :: rev t1).
  { rewrite ET, firstn_app, L1. replace (p0 + 1 - p0) with 1 by lia.
    rewrite firstn_all2 by lia. simpl. rewrite rev_app_distr. reflexivity. }
  assert (SN : skipn p0 timeline = t0 :: t2).
  { rewrite ET, skipn_app, L1, Nat.sub_diag. rewrite skipn_all2 by lia. reflexivity. }
  unfold ref_run. rewrite FN, SN, EB, EF.
  assert (exists s1 yb, (if negb (i0 =? 0)%Z then ref_pass cb true (t0 :: rev t1) (sb :: gb') s else Ok (s, []))
     = Ok (s1, yb) /\ Adm (fst s1)) as (s1 & yb & -> & AD1).
  { destruct (negb (i0 =? 0)%Z); [apply ref_pass_total; auto | eauto]. }
  match goal with |- context [if ?b then ref_pass ?c ?d ?e ?f ?g else _] =>
    assert (exists s2 yf, (if b then ref_pass c d e f g else Ok (s1, [])) = Ok (s2, yf)) as (s2 & yf & E2) end.
  { match goal with |- context [if ?b then _ else _] => destruct b end; [|eauto].
    destruct (ref_pass_total false t0 t2 sf gf' s1 AD1 TF) as (s2 & yf & E2 & _). eauto. }
  rewrite E2. cbn [rmap]. eauto.
Qed.
End L.

(** *** Failures of the sde *)
Section F.
Context {T : Type} {TO : TOrd T} {TL : TOrdLaws T} {V : Type} {NV : Num V} {Wd I : Type}.
Variable tsub : T -> T -> V.
Variable ig : integ T V Wd I.
Notation cb := (sde_cb tsub ig).

(** if the terms of the equation cannot be evaluated the step fails the same way *)
Lemma euler_next_err wd s s' x e : ig_A ig s (mkArr (ig_w ig) x) = Err e -> euler_next tsub ig wd s s' x = Err e.
Proof using Type. intro E. unfold euler_next. rewrite E. reflexivity. Qed.

Lemma check_dict_err (ids : list string) (d : dict (arr V)) : ~ incl (keys d) ids -> check_dict ids (RDict d) = Err KeyError.
Proof using Type.
  intro H. simpl. destruct (forallb _ (keys d)) eqn:E; auto. exfalso. apply H.
  rewrite forallb_forall in E. intros k Hk. apply mem_In. auto.
Qed.
Lemma check_dict_ok (ids : list string) (v : sdeval V) d : check_dict ids v = Ok d <-> v = RDict d /\ incl (keys d) ids.
Proof using Type.
  destruct v as [d'| |]; simpl; [|split; [discriminate|intros [? _]; discriminate]..].
  destruct (forallb _ (keys d')) eqn:E; split.
  - intro H; injection H as <-. split; auto. rewrite forallb_forall in E. intros k Hk. apply mem_In. auto.
  - intros [H _]. congruence.
  - discriminate.
  - intros [H HI]. injection H as ->. exfalso.
    assert (forallb (fun k => mem k ids) (keys d) = true); [|congruence].
    apply forallb_forall. intros k Hk. apply mem_In. auto.
Qed.
End F.
