(** Properties C07, C08, C09, C10 (one equation), C13: integration of an SDE. *)
From Coq Require Import String List Arith Bool ZArith Reals Lra Lia.
From Verif Require Import Base BaseOrd BaseNum BaseArr M_paths S_paths M_sde S_sde L_sde L_sde2 L_sde4
  M_presets S_presets L_presets.
Import ListNotations.

Section P.
Context {T : Type} {TO : TOrd T} {TL : TOrdLaws T} {V : Type} {NV : Num V} {Wd I : Type}.
Variable tsub : T -> T -> V.

(** C07: whatever a run returns is the Euler-Maruyama recursion (see [euler_run]),
    for every equation, sources, kind of numbers and kind of time points. *)
Theorem C07_euler_recursion (ig : integ T V Wd I) i0 pace_fn fuel wd inf (timeline : list T) p0 t0 wd' inf' xx :
  NoDup (ig_ids ig) ->
  valid_timeline timeline -> start_index (length timeline) i0 p0 -> nth_error timeline p0 = Some t0 ->
  length timeline + length (pace_fn timeline) <= fuel ->
  sde_call tsub ig i0 pace_fn fuel (wd, inf) [length timeline] timeline = Ok ((wd', inf'), xx) ->
  euler_run tsub ig timeline (pace_fn timeline) i0 p0 t0 wd wd' xx.
Proof. exact (sde_call_euler tsub ig i0 pace_fn fuel wd inf timeline p0 t0 wd' inf' xx). Qed.

(** and a run returns a value, if the methods and sources do and shapes fit *)
Theorem C07_run_completes (ig : integ T V Wd I) Adm i0 pace_fn fuel s (timeline : list T) p0 :
  total_integ ig Adm -> Adm (fst s) ->
  valid_timeline timeline -> start_index (length timeline) i0 p0 ->
  length timeline + length (pace_fn timeline) <= fuel ->
  exists s' xx, sde_call tsub ig i0 pace_fn fuel s [length timeline] timeline = Ok (s', xx).
Proof. intros TI. exact (sde_call_total tsub ig Adm TI i0 pace_fn fuel s timeline p0). Qed.

(** C10, one equation with default init and let methods: the value at the starting
    point is x0, up to taking logarithm and exponential if log=True *)
Theorem C10_start_linear (ig : integ T V Wd I) w x0 i0 pace_fn fuel wd inf (timeline : list T) p0 t0 wd' inf' xx :
  ig_w ig = w -> ig_init ig = sde_init w x0 -> ig_let ig = sde_let w w -> ig_log ig = false ->
  valid_timeline timeline -> start_index (length timeline) i0 p0 -> nth_error timeline p0 = Some t0 ->
  length timeline + length (pace_fn timeline) <= fuel ->
  sde_call tsub ig i0 pace_fn fuel (wd, inf) [length timeline] timeline = Ok ((wd', inf'), xx) ->
  exists y, nth_error xx p0 = Some (Some y) /\ forall ix, inb w ix -> y ix = bget x0 ix.
Proof.
  intros E1 E2 E3 E4 V0 SI N0 HF H.
  destruct (start_value tsub ig w x0 _ _ _ _ _ _ p0 t0 _ _ _ E1 E2 E3 V0 SI N0 HF H) as (y & EY & HY).
  rewrite E4 in HY. eauto.
Qed.

(** C13: a differential that is not declared fails the step... *)
Theorem C13_undeclared_step (ig : integ T V Wd I) args sde wd t t' x d :
  ig_A ig = sde_A (ig_ids ig) args sde ->
  sde t (mkArr (ig_w ig) x) (map (fun '(k, z) => (k, peval t z)) args) = Ok (RDict d) ->
  ~ incl (keys d) (ig_ids ig) ->
  euler_next tsub ig wd t t' x = Err KeyError.
Proof.
  intros EA ES NI. apply euler_next_err. rewrite EA. unfold sde_A. rewrite ES. cbn [rbind].
  apply check_dict_err; auto.
Qed.

(** ... so a run that ends normally only went through declared differentials *)
Theorem C13_run_declared (ig : integ T V Wd I) args sde i0 pace_fn fuel wd inf (timeline : list T) p0 t0 wd' inf' xx :
  ig_A ig = sde_A (ig_ids ig) args sde ->
  valid_timeline timeline -> start_index (length timeline) i0 p0 -> nth_error timeline p0 = Some t0 ->
  length timeline + length (pace_fn timeline) <= fuel ->
  sde_call tsub ig i0 pace_fn fuel (wd, inf) [length timeline] timeline = Ok ((wd', inf'), xx) ->
  run_of ig (fun wd t t' x wd' x' =>
               exists d, sde t (mkArr (ig_w ig) x) (map (fun '(k, z) => (k, peval t z)) args) = Ok (RDict d) /\
                         incl (keys d) (ig_ids ig))
         timeline (pace_fn timeline) i0 p0 t0 wd wd' xx.
Proof.
  intros EA V0 SI N0 HF H.
  eapply run_imp; [|eapply run_declared; eauto]. intros ? ? ? ? ? ? [_ ?]; auto.
Qed.

(** ... and the outcome of a run of an equation returning an undeclared
    differential is KeyError, on any timeline with at least two points *)
Theorem C13_undeclared_run (ig : integ T V Wd I) args sde i0 pace_fn fuel s (timeline : list T) p0 :
  ig_A ig = sde_A (ig_ids ig) args sde ->
  (forall t x, exists d, sde t x (map (fun '(k, z) => (k, peval t z)) args) = Ok (RDict d) /\
                         ~ incl (keys d) (ig_ids ig)) ->
  (forall t, exists x, ig_init ig t = Ok x) -> (forall t x, exists y, ig_let ig t x = Ok y) ->
  (forall iv i, exists i', ig_info_end ig iv i = Ok i') ->
  valid_timeline timeline -> start_index (length timeline) i0 p0 -> 2 <= length timeline ->
  length timeline + length (pace_fn timeline) <= fuel ->
  sde_call tsub ig i0 pace_fn fuel s [length timeline] timeline = Err KeyError.
Proof.
  intros EA HS HI HL HE. apply sde_call_fails; auto.
  intros t x. rewrite EA. unfold sde_A. destruct (HS t (mkArr (ig_w ig) x)) as (d & -> & ND). cbn [rbind].
  apply check_dict_err; auto.
Qed.
End P.
Print Assumptions C07_euler_recursion.
Print Assumptions C07_run_completes.
Print Assumptions C10_start_linear.
Print Assumptions C13_undeclared_step.
Print Assumptions C13_run_declared.
Print Assumptions C13_undeclared_run.

Section PR.
Context {Wd I : Type}.
Open Scope R_scope.

(** C10 in log mode, over the real numbers *)
Theorem C10_start_log (ig : integ R R Wd I) w x0 i0 pace_fn fuel wd inf (timeline : list R) p0 t0 wd' inf' xx :
  ig_w ig = w -> ig_init ig = sde_init w x0 -> ig_let ig = sde_let w w -> ig_log ig = true ->
  (forall ix, inb w ix -> 0 < bget x0 ix) ->
  valid_timeline timeline -> start_index (length timeline) i0 p0 -> nth_error timeline p0 = Some t0 ->
  (length timeline + length (pace_fn timeline) <= fuel)%nat ->
  sde_call Rminus ig i0 pace_fn fuel (wd, inf) [length timeline] timeline = Ok ((wd', inf'), xx) ->
  exists y, nth_error xx p0 = Some (Some y) /\ forall ix, inb w ix -> y ix = bget x0 ix.
Proof.
  intros E1 E2 E3 E4 POS V0 SI N0 HF H.
  destruct (start_value Rminus ig w x0 _ _ _ _ _ _ p0 t0 _ _ _ E1 E2 E3 V0 SI N0 HF H) as (y & EY & HY).
  rewrite E4 in HY. exists y. split; auto. intros ix HX. rewrite HY by auto. apply exp_ln. auto.
Qed.

(** C13: over the real numbers the step is the sum over all the sources, those
    missing from the dictionary counting zero *)
Theorem C13_missing_is_zero (ig : integ R R Wd I) tsub wd t t' x wd' x' :
  (forall A, ig_A ig t (mkArr (ig_w ig) x) = Ok A -> NoDup (keys A)) ->
  euler_step tsub ig wd t t' x wd' x' ->
  exists A zs, ig_A ig t (mkArr (ig_w ig) x) = Ok A /\
    (forall id, In id (ig_ids ig) -> exists z, In (id, z) zs) /\ NoDup (keys zs) /\ incl (keys zs) (ig_ids ig) /\
    forall ix, inb (ig_w ig) ix ->
      x' ix = x ix + Rlsum (map (fun '(id, z) => (match lookup id A with Some c => bget c ix | None => 0 end) * bget z ix) zs).
Proof.
  intros ND (ids & zs & A & (SO & HI) & DR & EA & HS).
  assert (K := draws_keys _ _ _ _ _ _ _ DR).
  assert (NZ : NoDup (keys zs)) by (rewrite K; apply sorted_nodup; auto).
  exists A, zs. split; [auto|]. split.
  { intros id H. apply HI in H. rewrite <- K in H. apply in_map_iff in H. destruct H as ([id' z] & E & H).
    simpl in E. subst. eauto. }
  split; [auto|]. split; [rewrite K; intros id H; apply HI; auto|].
  intros ix H. destruct (HS ix H) as (d & INC & ->).
  rewrite (increment_all A zs ix d (ND A EA) NZ INC). reflexivity.
Qed.

(** C08: any steps, any output points, any start: the output at time t is that of
    the exact solution along the path W whose increments the source gives *)
Theorem C08_wiener_exact (dw : Wd -> R -> R -> res (Wd * arr R)) vshape paths Adm W gi x0 mu sigma args
        i0 pace_fn fuel wd inf (timeline : list R) p0 t0 :
  let w := (vshape ++ [paths])%list in
  additive_source w dw Adm W -> Adm wd ->
  const_arg args "mu" mu -> const_arg args "sigma" sigma ->
  can (shp x0) w = true -> can (shp mu) w = true -> can (shp sigma) w = true ->
  valid_timeline timeline -> start_index (length timeline) i0 p0 -> nth_error timeline p0 = Some t0 ->
  (length timeline + length (pace_fn timeline) <= fuel)%nat ->
  exists s' xx,
    sde_call Rminus (wiener_process (I := I) dw gi vshape paths x0 args) i0 pace_fn fuel (wd, inf)
             [length timeline] timeline = Ok (s', xx) /\ length xx = length timeline /\
    forall i ti, nth_error timeline i = Some ti ->
      exists y, nth_error xx i = Some (Some y) /\
        forall ix, inb w ix ->
          y ix = bget x0 ix + bget mu ix * (ti - t0) + bget sigma ix * (W ti ix - W t0 ix).
Proof. apply wiener_exact. Qed.

(** C09 *)
Theorem C09_lognorm_exact (dw : Wd -> R -> R -> res (Wd * arr R)) vshape paths Adm W gi x0 mu sigma args
        i0 pace_fn fuel wd inf (timeline : list R) p0 t0 :
  let w := (vshape ++ [paths])%list in
  additive_source w dw Adm W -> Adm wd ->
  const_arg args "mu" mu -> const_arg args "sigma" sigma ->
  can (shp x0) w = true -> can (shp mu) w = true -> can (shp sigma) w = true ->
  (forall ix, inb w ix -> 0 < bget x0 ix) ->
  valid_timeline timeline -> start_index (length timeline) i0 p0 -> nth_error timeline p0 = Some t0 ->
  (length timeline + length (pace_fn timeline) <= fuel)%nat ->
  exists s' xx,
    sde_call Rminus (lognorm_process (I := I) dw gi vshape paths x0 args) i0 pace_fn fuel (wd, inf)
             [length timeline] timeline = Ok (s', xx) /\ length xx = length timeline /\
    forall i ti, nth_error timeline i = Some ti ->
      exists y, nth_error xx i = Some (Some y) /\
        forall ix, inb w ix ->
          y ix = bget x0 ix * exp ((bget mu ix - (bget sigma ix)^2 / 2) * (ti - t0)
                                   + bget sigma ix * (W ti ix - W t0 ix)) /\
          0 < y ix /\ (ti = t0 -> y ix = bget x0 ix).
Proof.
  intros w HW AD CM CS CX CMu CSi POS V0 SI N0 HF.
  destruct (lognorm_exact (I := I) dw vshape paths Adm W gi x0 mu sigma args i0 pace_fn fuel wd inf timeline p0 t0)
    as (s' & xx & E & L & H); auto.
  exists s', xx. split; [exact E|]. split; [exact L|]. intros i ti Ni.
  destruct (H i ti Ni) as (y & EY & HY). exists y. split; auto. intros ix HI.
  rewrite (HY ix HI). split; auto. split.
  - apply Rmult_lt_0_compat; [apply POS; auto|apply exp_pos].
  - intros ->. replace (_ + _) with 0 by ring. rewrite exp_0. ring.
Qed.
End PR.
Print Assumptions C10_start_log.
Print Assumptions C13_missing_is_zero.
Print Assumptions C08_wiener_exact.
Print Assumptions C09_lognorm_exact.

(** *** Examples, on integers: numbers and times in Z *)
Section Ex.
Open Scope Z_scope.
(** source dw counts its calls: the n-th value is the array [10n, 20n] *)
Definition ex_dw (n : nat) (t dt : Z) : res (nat * arr Z) :=
  Ok (S n, mkArr [2]%nat (fun ix => Z.of_nat (S n) * match ix with [0%nat] => 10 | _ => 20 end)).
(** dx = x dt + 1 dw, two paths, starting from 1 *)
Definition ex_sde (t : Z) (x : arr Z) (args : dict (arr Z)) : res (sdeval Z) :=
  Ok (RDict [("dt"%string, x); ("dw"%string, ascalar 1)]).
Definition ex_ig : integ Z Z nat unit :=
  mk_sde dw_ids (dw_src ex_dw) false ex_sde false [] 2 (ascalar 1) [].
Definition show (r : res ((nat * unit) * list (option (buf Z)))) :=
  match r with
  | Ok ((n, _), xx) => Ok (n, map (option_map (fun y : buf Z => (y [0%nat], y [1%nat]))) xx)
  | Err e => Err e
  end.

(** forwards from 0, grid 0, 1, 3: 1 -> 1 + 1*1 + 10 = 12 -> 12 + 12*2 + 20 = 56 *)
Example C07_ex : show (sde_call Z.sub ex_ig 0 (fun _ => [1]) 10 (0%nat, tt) [2%nat] [0; 3])
  = Ok (2%nat, [Some (1, 1); Some (56, 106)]).
Proof. vm_compute. reflexivity. Qed.
(** starting from the last point: backwards *)
Example C07_ex_back : show (sde_call Z.sub ex_ig (-1) (fun _ => []) 10 (0%nat, tt) [2%nat] [0; 3])
  = Ok (1%nat, [Some (1 - 3 + 10, 1 - 3 + 20); Some (1, 1)]).
Proof. vm_compute. reflexivity. Qed.
(** the hypothesis of completeness holds for it *)
Example C07_ex_total : total_integ ex_ig (fun _ => True).
Proof.
  apply dw_total; auto.
  - intros t x. exists (mkArr [2%nat] x), (ascalar 1). auto.
  - intros wd t dt _. eexists. eexists. split; [reflexivity|]. split; auto.
Qed.
(** undeclared differentials *)
Example C13_ex : show (sde_call Z.sub (mk_sde dw_ids (dw_src ex_dw) false
    (fun t x args => Ok (RDict [("dt"%string, x); ("dn"%string, ascalar 1)])) false [] 2 (ascalar 1) [] : integ Z Z nat unit)
    0 (fun _ => [1]) 10 (0%nat, tt) [2%nat] [0; 3]) = Err KeyError.
Proof. vm_compute. reflexivity. Qed.
(** a missing dt counts zero; the sources are evaluated anyway *)
Example C13_ex_missing : show (sde_call Z.sub (mk_sde dw_ids (dw_src ex_dw) false
    (fun t x args => Ok (RDict [("dw"%string, ascalar 2)])) false [] 2 (ascalar 1) [] : integ Z Z nat unit)
    0 (fun _ => [1]) 10 (0%nat, tt) [2%nat] [0; 3]) = Ok (2%nat, [Some (1, 1); Some (1 + 20 + 40, 1 + 40 + 80)]).
Proof. vm_compute. reflexivity. Qed.
End Ex.

(** an additive source: W(t) = t^2, one path; the hypotheses of C08, C09 hold *)
Section ExR.
Open Scope R_scope.
Definition sq_source (u : unit) (t dt : R) : res (unit * arr R) :=
  Ok (tt, ascalar ((t + dt) ^ 2 - t ^ 2)).
Example C08_ex_additive : additive_source [1%nat] sq_source (fun _ => True) (fun t _ => t ^ 2).
Proof.
  intros wd t dt _. exists tt, (ascalar ((t + dt) ^ 2 - t ^ 2)). repeat split; auto.
Qed.
(** dx = 2 dt + 3 dw from 1 at t = 0, with W = t^2, gives 1 + 2*4 + 3*16 = 57 at t = 4, for any steps *)
Example C08_ex pc : exists s' xx y,
  sde_call Rminus (wiener_process (I := unit) sq_source false [] 1 (ascalar 1)
     [("mu"%string, PConst (ascalar 2)); ("sigma"%string, PConst (ascalar 3))]) 0 (fun _ => pc) (3 + length pc) (tt, tt)
     [2%nat] [0; 4] = Ok (s', xx) /\ nth_error xx 1 = Some (Some y) /\ y [0%nat] = 57.
Proof.
  destruct (C08_wiener_exact (I := unit) sq_source [] 1 _ _ false (ascalar 1) (ascalar 2) (ascalar 3)
     [("mu"%string, PConst (ascalar 2)); ("sigma"%string, PConst (ascalar 3))] 0 (fun _ => pc) (3 + length pc) tt tt
     [0; 4] 0%nat 0 C08_ex_additive) as (s' & xx & E & _ & H); try reflexivity; auto.
  - split; [discriminate|]. split; repeat constructor; unfold isnum; simpl;
      try (apply teqb_R_true; auto); try (apply tltb_R_true; lra).
  - unfold start_index. simpl. lia.
  - simpl. lia.
  - destruct (H 1%nat 4 eq_refl) as (y & EY & HY). exists s', xx, y. repeat split; auto.
    rewrite HY by (repeat constructor). cbn. lra.
Qed.
End ExR.
