(** C73: diagnostics (getinfo) do not affect the results; what heston_process counts. *)
From Coq Require Import String List Arith Bool ZArith Reals Lia Sorting.Sorted.
From Verif Require Import Base BaseOrd BaseNum BaseArr M_paths S_paths S_run L_ord L_paths8
  M_sde S_sde S_sdes L_sde L_sde2 L_sde3 L_sde4 L_pack L_sim M_presets S_presets L_presets S_integrate P_source4 S_info L_info L_info2.
Import ListNotations.

Section C73.
Context {T : Type} {TO : TOrd T} {TL : TOrdLaws T} {V : Type} {NV : Num V} {Wd I : Type}.
Variable tsub : T -> T -> V.
Variables (i0 : Z) (pace_fn : list T -> list T) (fuel : nat) (timeline : list T) (p0 : nat).
Hypothesis V0 : valid_timeline timeline.
Hypothesis SI : start_index (length timeline) i0 p0.
Hypothesis HF : length timeline + length (pace_fn timeline) <= fuel.
Notation run ig wd inf := (sde_call tsub ig i0 pace_fn fuel (wd, inf) [length timeline] timeline).

(** whatever a class logs: if the integration is completed, values and sources are those of an integration without diagnostics *)
Theorem C73_values (ig : integ T V Wd I) wd inf inf2 wd' inf' xx :
  run (set_getinfo true ig) wd inf = Ok ((wd', inf'), xx) -> run (set_getinfo false ig) wd inf2 = Ok ((wd', inf2), xx).
Proof using V0 SI HF TL. intro H. exact (off_follows tsub ig i0 pace_fn fuel wd inf inf2 timeline p0 wd' inf' xx V0 SI HF H). Qed.

(** if what is logged never fails, results are the same, exceptions included *)
Theorem C73_outcome (ig : integ T V Wd I) Inv wd inf inf2 : info_succeeds ig Inv ->
  outcome (run (set_getinfo true ig) wd inf) = outcome (run (set_getinfo false ig) wd inf2).
Proof using V0 SI HF TL. intro IS. exact (outcome_same tsub ig Inv IS i0 pace_fn fuel wd inf inf2 timeline p0 V0 SI HF). Qed.
Lemma any_flags (ig : integ T V Wd I) Inv wd inf inf2 b b' : info_succeeds ig Inv ->
  outcome (run (set_getinfo b ig) wd inf) = outcome (run (set_getinfo b' ig) wd inf2).
Proof using V0 SI HF TL.
  intro IS. assert (Z : forall c i j, outcome (run (set_getinfo c ig) wd i) = outcome (run (set_getinfo false ig) wd j)).
  { intros [|] i j; [apply (C73_outcome ig Inv wd i j IS)|]. rewrite <- (C73_outcome ig Inv wd i i IS). apply (C73_outcome ig Inv wd i j IS). }
  rewrite (Z b inf inf2), (Z b' inf2 inf2). reflexivity.
Qed.
End C73.

Section Presets.
Context {T : Type} {TO : TOrd T} {TL : TOrdLaws T} {V : Type} {NV : Num V} {Wd I : Type}.
Variable tsub : T -> T -> V.
Variables (i0 : Z) (pace_fn : list T -> list T) (fuel : nat) (timeline : list T) (p0 : nat).
Hypothesis V0 : valid_timeline timeline.
Hypothesis SI : start_index (length timeline) i0 p0.
Hypothesis HF : length timeline + length (pace_fn timeline) <= fuel.
Variables (vshape : list nat) (paths : nat) (args : dict (param T V)).
Definition gi_result {J} (ig : bool -> integ T V Wd J) (b : bool) (wd : Wd) (inf : J) :=
  outcome (sde_call tsub (ig b) i0 pace_fn fuel (wd, inf) [length timeline] timeline).
(** the processes provided: nothing depends on getinfo.  A source of jumps may or may not expose the jumps it made; if
    it does, they should broadcast to the shape of values. *)
Theorem C73_presets (dw dj : Wd -> T -> V -> res (Wd * arr V)) (dn : Wd -> option (arr V)) (factors : nat) set_order (x0 y0 : arr V) wd (inf inf2 : I) (c c2 : arr nat) (j j2 : jinfo V) b b' :
  gi_result (fun gi => wiener_process dw gi vshape paths x0 args) b wd inf = gi_result (fun gi => wiener_process dw gi vshape paths x0 args) b' wd inf2 /\
  gi_result (fun gi => lognorm_process dw gi vshape paths x0 args) b wd inf = gi_result (fun gi => lognorm_process dw gi vshape paths x0 args) b' wd inf2 /\
  gi_result (fun gi => ou_process dw gi vshape paths x0 args) b wd inf = gi_result (fun gi => ou_process dw gi vshape paths x0 args) b' wd inf2 /\
  gi_result (fun gi => cir_process dw gi vshape paths x0 args) b wd inf = gi_result (fun gi => cir_process dw gi vshape paths x0 args) b' wd inf2 /\
  gi_result (fun gi => hull_white_process dw gi vshape factors paths x0 args) b wd inf = gi_result (fun gi => hull_white_process dw gi vshape factors paths x0 args) b' wd inf2 /\
  gi_result (fun gi => full_heston_process dw set_order gi vshape paths x0 y0 args) b wd c = gi_result (fun gi => full_heston_process dw set_order gi vshape paths x0 y0 args) b' wd c2 /\
  gi_result (fun gi => heston_process dw set_order gi vshape paths x0 y0 args) b wd c = gi_result (fun gi => heston_process dw set_order gi vshape paths x0 y0 args) b' wd c2 /\
  ((forall wd n, dn wd = Some n -> broadcasts (shp n) (vshape ++ [paths])) ->
   gi_result (fun gi => jumpdiff_process tsub dw dj dn gi vshape paths x0 args) b wd j = gi_result (fun gi => jumpdiff_process tsub dw dj dn gi vshape paths x0 args) b' wd j2).
Proof using V0 SI HF TL.
  unfold gi_result.
  split; [exact (any_flags tsub i0 pace_fn fuel timeline p0 V0 SI HF (wiener_process dw b vshape paths x0 args) _ wd inf inf2 b b' (no_info (wiener_process dw b vshape paths x0 args) eq_refl eq_refl eq_refl eq_refl))|].
  split; [exact (any_flags tsub i0 pace_fn fuel timeline p0 V0 SI HF (lognorm_process dw b vshape paths x0 args) _ wd inf inf2 b b' (no_info (lognorm_process dw b vshape paths x0 args) eq_refl eq_refl eq_refl eq_refl))|].
  split; [exact (any_flags tsub i0 pace_fn fuel timeline p0 V0 SI HF (ou_process dw b vshape paths x0 args) _ wd inf inf2 b b' (no_info (ou_process dw b vshape paths x0 args) eq_refl eq_refl eq_refl eq_refl))|].
  split; [exact (any_flags tsub i0 pace_fn fuel timeline p0 V0 SI HF (cir_process dw b vshape paths x0 args) _ wd inf inf2 b b' (no_info (cir_process dw b vshape paths x0 args) eq_refl eq_refl eq_refl eq_refl))|].
  split; [exact (any_flags tsub i0 pace_fn fuel timeline p0 V0 SI HF (hull_white_process dw b vshape factors paths x0 args) _ wd inf inf2 b b' (no_info (hull_white_process dw b vshape factors paths x0 args) eq_refl eq_refl eq_refl eq_refl))|].
  split; [exact (any_flags tsub i0 pace_fn fuel timeline p0 V0 SI HF (full_heston_process dw set_order b vshape paths x0 y0 args) _ wd c c2 b b' (full_heston_info _ _ _ _ _ _ _ _))|].
  split; [exact (any_flags tsub i0 pace_fn fuel timeline p0 V0 SI HF (heston_process dw set_order b vshape paths x0 y0 args) _ wd c c2 b b' (heston_info _ _ _ _ _ _ _ _))|].
  intro HD. refine (any_flags tsub i0 pace_fn fuel timeline p0 V0 SI HF (jumpdiff_process tsub dw dj dn b vshape paths x0 args) _ wd j j2 b b' (jumpdiff_info _ _ _ _ _ _ _ _ _ _)).
  intros w' n E. apply can_broadcasts. eauto.
Qed.

(** negative_y_count: for each entry, the number of steps, in the last pass made, that start from a negative y (as such,
    the values at the last time point are not looked at) *)
Theorem C73_negative_y (full : bool) (dw : Wd -> T -> V -> res (Wd * arr V)) set_order (x0 y0 : arr V) wd c t0 wd' c' xx :
  nth_error timeline p0 = Some t0 ->
  let addaxis := force_addaxis false vshape in
  let ig := (if full then full_heston_process else heston_process) dw set_order true vshape paths x0 y0 args in
  sde_call tsub ig i0 pace_fn fuel (wd, c) [length timeline] timeline = Ok ((wd', c'), xx) ->
  exists rv grid wd1 t todo x l,
    (rv = false <-> goes_forth (length timeline) i0) /\
    (~ (goes_back i0 /\ goes_forth (length timeline) i0) -> wd1 = wd) /\
    grid_spec rv timeline (pace_fn timeline) t0 grid /\ grid = t :: todo /\ ig_init ig t = Ok x /\
    chain (euler_step tsub ig) wd1 t x todo wd' l /\
    forall ix, inb (vshape ++ [paths]) ix ->
      dat c' ix = length (filter (fun e => nlt (snd (fst e) (comp addaxis vshape 1 ix)) nzero) (removelast l)).
Proof using V0 SI HF TL.
  intros N0 addaxis ig H.
  assert (EI : forall wd t t' x wd' x', next_step tsub ig wd t t' x wd' x' -> euler_step tsub ig wd t t' x wd' x').
  { intros. apply euler_next_step; auto. unfold ig. destruct full; repeat constructor; simpl; intuition discriminate. }
  assert (LG : forall x, logi ig x = x) by (intro x; unfold ig; destruct full; reflexivity).
  pose (vp := vshape ++ [paths]).
  pose (g := fun (x : buf V) (a : list nat -> nat) (ix : list nat) => a ix + if nlt (x (comp addaxis vshape 1 ix)) nzero then 1 else 0).
  destruct (run_folded tsub ig) with (R := fun (c : arr nat) a => forall ix, inb vp ix -> dat c ix = a ix) (g := g) (a0 := fun _ : list nat => 0)
    (i0 := i0) (pace_fn := pace_fn) (fuel := fuel) (wd := wd) (inf := c) (timeline := timeline) (p0 := p0) (t0 := t0) (wd' := wd') (c' := c') (xx := xx)
    as (rv & grid & wd1 & t & todo & x & l & E1 & E2 & E3 & E4 & E5 & E6 & E7); auto.
  - unfold ig. destruct full; reflexivity.
  - intros. unfold ig. destruct full; reflexivity.
  - intros iv w' x k k' a E RC ix HI. unfold g. rewrite <- (RC ix HI). apply (heston_next_get vshape paths iv w' x k k' ix); auto. unfold ig in E. destruct full; exact E.
  - intros k a RC. unfold ig. destruct full; exact RC.
  - intros iv k k' a E RC. unfold ig in E. destruct full; injection E as <-; exact RC.
  - exists rv, grid, wd1, t, todo, x, l. repeat (split; [assumption|]). split.
    + rewrite LG in E6. eapply chain_imp; [|exact E6]. exact EI.
    + intros ix HI. rewrite (E7 ix HI). unfold folded.
      assert (G : forall m (a : list nat -> nat), fold_left (fun a (e : T * buf V * Wd) => g (snd (fst e)) a) m a ix = a ix + length (filter (fun e => nlt (snd (fst e) (comp addaxis vshape 1 ix)) nzero) m)).
      { induction m as [|e m IH]; intro a; cbn [fold_left filter]; [simpl; lia|]. rewrite IH. unfold g. destruct (nlt _ _); simpl; lia. }
      rewrite G. reflexivity.
Qed.
End Presets.
Print Assumptions C73_values.
Print Assumptions C73_outcome.
Print Assumptions C73_presets.
Print Assumptions C73_negative_y.

(** *** Examples *)
Section Ex.
Local Existing Instance Num_Z.
Local Open Scope Z_scope.
Definition hargs : dict (param Z Z) := map (fun '(k, v) => (k, PConst (ascalar v))) [("mu"%string, 0); ("sigma"%string, 1); ("theta"%string, 0); ("k"%string, 0); ("xi"%string, 1)].
Definition ex_dw (n : nat) (t dt : Z) : res (nat * arr Z) := Ok (S n, ascalar (match n with 0%nat => 0 | _ => -3 end)).
Definition hrun gi := sde_call Z.sub (full_heston_process ex_dw (fun l => l) gi [] 1 (ascalar 1) (ascalar 1) hargs) 0 (fun _ => [3]) 10 (0%nat, ascalar 7%nat) [3%nat] [0; 1; 5].
Definition hshow (r : res ((nat * arr nat) * list (option (buf Z)))) := rmap (fun '((n, c), xx) => (n, dat c [0%nat], map (option_map (fun y => y [1%nat; 0%nat])) xx)) r.
(** steps 0, 1 | 3, 5: y is 1, 1, -2, -2.  One step starts from a negative value. *)
Example C73_ex_heston : hshow (hrun true) = Ok (3%nat, 1%nat, [Some 1; Some 1; Some (-2)]).
Proof. vm_compute. reflexivity. Qed.
Example C73_ex_off : hshow (hrun false) = Ok (3%nat, 7%nat, [Some 1; Some 1; Some (-2)]).
Proof. vm_compute. reflexivity. Qed.
(** diagnostics that fail make the integration fail *)
Definition bad_dn (n : nat) : option (arr Z) := if (n =? 1)%nat then Some (mkArr [3%nat] (fun _ => 1)) else None.
Definition jrun gi := outcome (sde_call Z.sub (jumpdiff_process Z.sub ex_dw (fun n _ _ => Ok (n, ascalar 1)) bad_dn gi [] 2 (ascalar 1) hargs) 0 (fun _ => []) 10 (0%nat, mkJ [] (fun _ => 0)) [2%nat] [0; 1]).
Example C73_ex_fails : jrun true = Err ValueError /\ exists r, jrun false = Ok r.
Proof. split; [vm_compute; reflexivity|]. eexists. vm_compute. reflexivity. Qed.
End Ex.
