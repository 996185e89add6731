(** Lemmas on the preset processes. *)
From Coq Require Import String List Arith Bool ZArith Reals Lra Lia.
From Verif Require Import Base BaseOrd BaseNum BaseArr M_paths S_paths S_run L_ord L_paths8
  M_sde S_sde L_sde L_sde2 L_sde3 M_presets S_presets.
Import ListNotations.

Section G.
Context {T : Type} {TO : TOrd T} {V : Type} {NV : Num V} {Wd I : Type}.
Variable tsub : T -> T -> V.

Lemma dw_next_ok (ig : integ T V Wd I) dw a b wd t t' x wd' x' :
  ig_ids ig = dw_ids -> ig_src ig = dw_src dw ->
  ig_A ig t (mkArr (ig_w ig) x) = Ok [("dt"%string, a); ("dw"%string, b)] ->
  euler_next tsub ig wd t t' x = Ok (wd', x') ->
  exists z, dw wd t (tsub t' t) = Ok (wd', z) /\
    forall ix, inb (ig_w ig) ix ->
      x' ix = nadd (x ix) (nadd (nadd nzero (nmul (bget a ix) (tsub t' t))) (nmul (bget b ix) (bget z ix))).
Proof.
  intros EI ES EA H. unfold euler_next in H. rewrite EA in H. cbn [rbind] in H.
  unfold dZ in H. rewrite EI in H. change (ssort dw_ids) with dw_ids in H.
  unfold dw_ids in H. cbn [eval_sources] in H. rewrite ES in H.
  change (dw_src dw "dt"%string wd t (tsub t' t)) with (Ok (wd, ascalar (tsub t' t)) : res (Wd * arr V)) in H.
  cbn [rbind] in H.
  change (dw_src dw "dw"%string wd t (tsub t' t)) with (dw wd t (tsub t' t)) in H.
  destruct (dw wd t (tsub t' t)) as [[wd1 z]|]; cbn [rbind] in H; [|discriminate].
  cbn [euler_sum lookup String.eqb Ascii.eqb Bool.eqb] in H.
  destruct (aop nmul a _) as [p|] eqn:E1; cbn [rbind] in H; [|discriminate].
  destruct (aop nadd _ p) as [s1|] eqn:E2; cbn [rbind] in H; [|discriminate].
  destruct (aop nmul b z) as [p2|] eqn:E3; cbn [rbind] in H; [|discriminate].
  destruct (aop nadd s1 p2) as [s2|] eqn:E4; cbn [rbind] in H; [|discriminate].
  destruct (aop nadd _ s2) as [r|] eqn:E5; cbn [rbind] in H; [|discriminate].
  destruct (assign _ r) as [y|] eqn:E6; cbn [rbind] in H; [|discriminate].
  injection H as <- <-. exists z. split; auto. intros ix HI.
  apply assign_ok in E6. destruct E6 as [-> _].
  rewrite (aop_get _ _ _ _ ix E5), (aop_get _ _ _ _ ix E4), (aop_get _ _ _ _ ix E3),
    (aop_get _ _ _ _ ix E2), (aop_get _ _ _ _ ix E1).
  rewrite bget_self by exact HI. reflexivity.
Qed.

Lemma arg_eval (args : dict (param T V)) t k z : lookup k args = Some z ->
  arg k (map (fun '(k, z) => (k, peval t z)) args) = Ok (peval t z).
Proof.
  intro H. unfold arg. induction args as [|[k' z'] args IH]; simpl in *; [discriminate|].
  destruct (String.eqb k k'); [injection H as ->; auto|auto].
Qed.

Lemma dw_check d1 d2 : @check_dict V dw_ids (RDict [("dt"%string, d1); ("dw"%string, d2)]) =
  Ok [("dt"%string, d1); ("dw"%string, d2)].
Proof. reflexivity. Qed.

(** one equation with default methods, from parts that never fail *)
Lemma dw_total (sde : T -> arr V -> dict (arr V) -> res (sdeval V)) log dw gi vshape paths x0 args (Adm : Wd -> Prop) :
  let w := (vshape ++ [paths])%list in
  can (shp x0) w = true ->
  (forall t x, exists a b, sde t (mkArr w x) (map (fun '(k, z) => (k, peval t z)) args) =
       Ok (RDict [("dt"%string, a); ("dw"%string, b)]) /\ can (shp a) w = true /\ can (shp b) w = true) ->
  (forall wd t dt, Adm wd -> exists wd' z, dw wd t dt = Ok (wd', z) /\ can (shp z) w = true /\ Adm wd') ->
  total_integ (mk_sde (I := I) dw_ids (dw_src dw) log sde gi vshape paths x0 args) Adm.
Proof.
  intros w HX HA HD. split; cbn.
  - intros t. unfold sde_init. rewrite assign_can by auto. eauto.
  - intros t x. destruct (HA t x) as (a & b & E & C1 & C2). subst w. unfold sde_A. rewrite E. cbn [rbind].
    rewrite dw_check. eexists. split; [reflexivity|]. constructor; [split; [left|]; auto|].
    constructor; [split; [right; left|]; auto|]. constructor.
  - intros id wd t dt HI AD. destruct HI as [<-|[<-|[]]].
    + exists wd, (ascalar dt). repeat split; auto.
    + destruct (HD wd t dt AD) as (wd' & z & E & C & AD'). exists wd', z. auto.
  - intros t x. unfold sde_let. rewrite assign_can by (apply can_refl). eauto.
  - unfold no_info_next. eauto.
  - unfold no_info_end. eauto.
Qed.
End G.

(** *** wiener_process and lognorm_process with constant parameters *)
Section R.
Context {Wd I : Type}.
Open Scope R_scope.

Section Common.
Variables (dw : Wd -> R -> R -> res (Wd * arr R)) (vshape : list nat) (paths : nat)
  (Adm : Wd -> Prop) (W : R -> list nat -> R).
Let w := (vshape ++ [paths])%list.
Hypothesis HW : additive_source w dw Adm W.

Lemma additive_total : forall wd t dt, Adm wd -> exists wd' z, dw wd t dt = Ok (wd', z) /\ can (shp z) w = true /\ Adm wd'.
Proof. intros wd t dt H. destruct (HW wd t dt H) as (wd' & z & ? & ? & ? & _). eauto. Qed.

(** equations with constant coefficients a dt + b dw *)
Variables (sde : R -> arr R -> dict (arr R) -> res (sdeval R)) (log : bool) (gi : bool)
  (x0 a b : arr R) (args : dict (param R R)).
Hypothesis HX : can (shp x0) w = true.
Hypothesis CA : can (shp a) w = true.
Hypothesis CB : can (shp b) w = true.
Hypothesis HS : forall t x, sde t (mkArr w x) (map (fun '(k, z) => (k, peval t z)) args) =
       Ok (RDict [("dt"%string, a); ("dw"%string, b)]).
Let ig : integ R R Wd I := mk_sde dw_ids (dw_src dw) log sde gi vshape paths x0 args.

Lemma const_coeff i0 pace_fn fuel wd inf (timeline : list R) p0 t0 :
  Adm wd ->
  valid_timeline timeline -> start_index (length timeline) i0 p0 -> nth_error timeline p0 = Some t0 ->
  (length timeline + length (pace_fn timeline) <= fuel)%nat ->
  exists s' xx,
    sde_call Rminus ig i0 pace_fn fuel (wd, inf) [length timeline] timeline = Ok (s', xx) /\
    length xx = length timeline /\
    forall i ti, nth_error timeline i = Some ti ->
      exists y, nth_error xx i = Some (Some y) /\
        forall ix, inb w ix ->
          let v := (if log then ln (bget x0 ix) else bget x0 ix) + bget a ix * (ti - t0) + bget b ix * (W ti ix - W t0 ix) in
          y ix = if log then exp v else v.
Proof.
  intros AD V0 SI N0 HF.
  assert (TI : total_integ ig Adm).
  { apply dw_total; auto. - intros t x. exists a, b. rewrite HS. auto. - apply additive_total. }
  destruct (sde_call_total Rminus ig Adm TI i0 pace_fn fuel (wd, inf) timeline p0 AD V0 SI HF) as ([wd' inf'] & xx & E).
  exists (wd', inf'), xx. split; auto.
  assert (RN := sde_call_run Rminus ig i0 pace_fn fuel wd inf timeline p0 t0 wd' inf' xx V0 SI N0 HF E).
  split. { destruct RN as (? & ? & ? & ? & ? & _ & _ & _ & _ & _ & _ & L & _). auto. }
  set (P := fun (u : Wd) (t : R) (x : buf R) => Adm u /\ forall ix, inb w ix ->
     x ix = (if log then ln (bget x0 ix) else bget x0 ix) + bget a ix * (t - t0) + bget b ix * (W t ix - W t0 ix)).
  destruct (run_inv ig (next_step Rminus ig) P Adm timeline (pace_fn timeline) i0 p0 t0 wd wd' xx) as [OUT _]; auto.
  - intros u t x Hu Et EI. apply teqb_R_true in Et. subst t. split; auto. intros ix HI.
    simpl in EI. unfold sde_init in EI. fold w in EI. rewrite assign_can in EI by auto. injection EI as <-.
    unfold logi. cbn [ig_log ig mk_sde]. destruct log; simpl; ring.
  - intros u t x t' u' x' [Hu HP] ST. unfold next_step in ST.
    destruct (dw_next_ok Rminus ig dw a b u t t' x u' x' eq_refl eq_refl) as (z & EZ & HN); auto.
    { cbn [ig_A ig mk_sde]. unfold sde_A. cbn [ig_w ig mk_sde]. fold w. rewrite HS. cbn [rbind]. apply dw_check. }
    destruct (HW u t (t' - t) Hu) as (u1 & z1 & EZ1 & Hu1 & _ & HZ). rewrite EZ1 in EZ. injection EZ as <- <-.
    split; auto. intros ix HI. rewrite HN by exact HI. rewrite HZ by exact HI. rewrite HP by exact HI.
    replace (t + (t' - t)) with t' by ring. cbn. ring.
  - intros u t x [Hu _]; auto.
  - intros i ti Ni. destruct (OUT i ti Ni) as (t & x & u & y & Et & [_ HP] & EL & EX).
    apply teqb_R_true in Et. subst t. exists (fin ig y). split; auto. intros ix HI v.
    simpl in EL. unfold sde_let in EL. rewrite assign_can in EL by apply can_refl. injection EL as <-.
    unfold fin. cbn [ig_log ig mk_sde].
    assert (EV : bget (mkArr w x) ix = v). { rewrite bget_self by auto. simpl. rewrite HP by auto. reflexivity. }
    fold w. destruct log; rewrite EV; reflexivity.
Qed.
End Common.

Variables (dw : Wd -> R -> R -> res (Wd * arr R)) (vshape : list nat) (paths : nat)
  (Adm : Wd -> Prop) (W : R -> list nat -> R) (gi : bool)
  (x0 mu sigma : arr R) (args : dict (param R R)).
Let w := (vshape ++ [paths])%list.

Lemma wiener_exact i0 pace_fn fuel wd inf (timeline : list R) p0 t0 :
  additive_source w dw Adm W -> Adm wd ->
  const_arg args "mu" mu -> const_arg args "sigma" sigma ->
  can (shp x0) w = true -> can (shp mu) w = true -> can (shp sigma) w = true ->
  valid_timeline timeline -> start_index (length timeline) i0 p0 -> nth_error timeline p0 = Some t0 ->
  (length timeline + length (pace_fn timeline) <= fuel)%nat ->
  exists s' xx,
    sde_call Rminus (wiener_process (I := I) dw gi vshape paths x0 args) i0 pace_fn fuel (wd, inf)
             [length timeline] timeline = Ok (s', xx) /\ length xx = length timeline /\
    forall i ti, nth_error timeline i = Some ti ->
      exists y, nth_error xx i = Some (Some y) /\
        forall ix, inb w ix ->
          y ix = bget x0 ix + bget mu ix * (ti - t0) + bget sigma ix * (W ti ix - W t0 ix).
Proof.
  intros HW AD CM CS CX CMu CSi V0 SI N0 HF.
  apply (const_coeff dw vshape paths Adm W HW wiener_sde false gi x0 mu sigma args) with (p0 := p0); auto.
  intros t x. unfold wiener_sde. rewrite (arg_eval _ _ _ _ CM), (arg_eval _ _ _ _ CS). reflexivity.
Qed.

Lemma log_drift_ok (m s : arr R) : can (shp m) w = true -> can (shp s) w = true ->
  exists d, log_drift m s = Ok d /\ can (shp d) w = true /\
    forall ix, bget d ix = bget m ix - bget s ix * bget s ix / 2.
Proof.
  intros C1 C2. unfold log_drift.
  destruct (aop_ok nmul s s w C2 C2) as (ss & E1 & C3). rewrite E1. cbn [rbind].
  destruct (aop_ok ndiv ss two w C3 (can_nil _)) as (h & E2 & C4). rewrite E2. cbn [rbind].
  destruct (aop_ok nsub m h w C1 C4) as (d & E3 & C5). rewrite E3. exists d. repeat split; auto.
  intros ix. rewrite (aop_get _ _ _ _ ix E3), (aop_get _ _ _ _ ix E2), (aop_get _ _ _ _ ix E1). reflexivity.
Qed.

Lemma lognorm_exact i0 pace_fn fuel wd inf (timeline : list R) p0 t0 :
  additive_source w dw Adm W -> Adm wd ->
  const_arg args "mu" mu -> const_arg args "sigma" sigma ->
  can (shp x0) w = true -> can (shp mu) w = true -> can (shp sigma) w = true ->
  (forall ix, inb w ix -> 0 < bget x0 ix) ->
  valid_timeline timeline -> start_index (length timeline) i0 p0 -> nth_error timeline p0 = Some t0 ->
  (length timeline + length (pace_fn timeline) <= fuel)%nat ->
  exists s' xx,
    sde_call Rminus (lognorm_process (I := I) dw gi vshape paths x0 args) i0 pace_fn fuel (wd, inf)
             [length timeline] timeline = Ok (s', xx) /\ length xx = length timeline /\
    forall i ti, nth_error timeline i = Some ti ->
      exists y, nth_error xx i = Some (Some y) /\
        forall ix, inb w ix ->
          y ix = bget x0 ix * exp ((bget mu ix - (bget sigma ix)^2 / 2) * (ti - t0)
                                   + bget sigma ix * (W ti ix - W t0 ix)).
Proof.
  intros HW AD CM CS CX CMu CSi POS V0 SI N0 HF.
  destruct (log_drift_ok mu sigma CMu CSi) as (d & ED & CD & HD).
  destruct (const_coeff dw vshape paths Adm W HW lognorm_sde true gi x0 d sigma args) with
    (i0 := i0) (pace_fn := pace_fn) (fuel := fuel) (wd := wd) (inf := inf) (timeline := timeline) (p0 := p0) (t0 := t0)
    as (s' & xx & E & L & H); auto.
  { intros t x. unfold lognorm_sde. rewrite (arg_eval _ _ _ _ CM), (arg_eval _ _ _ _ CS). cbn [rbind peval].
    rewrite ED. reflexivity. }
  exists s', xx. split; auto. split; auto. intros i ti Ni. destruct (H i ti Ni) as (y & EY & HY).
  exists y. split; auto. intros ix HI. rewrite (HY ix HI). cbv zeta. rewrite HD.
  rewrite Rplus_assoc, exp_plus, exp_ln by (apply POS; auto). f_equal. f_equal. f_equal.
  f_equal. simpl. rewrite Rmult_1_r. reflexivity.
Qed.
End R.
