(** Properties C01-C06: the simulation engine. *)
From Coq Require Import List ZArith Bool Lia Sorting.Sorted.
From Flocq Require Import IEEE754.BinarySingleNaN.
From Verif Require Import Base BaseOrd BaseFloat M_paths S_paths L_paths5 L_paths6 L_paths7.
Import ListNotations.

Section P.
Context {T : Type} {TO : TOrd T} {TL : TOrdLaws T} {S X Y : Type}.

(** C01: on a valid timeline, with steps never shortened, the call ends normally and every entry
    of the output has been written, in order within each pass, from a working
    state at exactly the time of the entry (see [outputs_ok]). *)
Theorem C01_outputs_stored (cb : callbacks T S X Y) K i0 gi pace_fn fuel s_init (timeline : list T) p0 t0 :
  total_cb cb -> nonadaptive cb -> 2 <= K ->
  valid_timeline timeline -> start_index (length timeline) i0 p0 -> nth_error timeline p0 = Some t0 ->
  (goes_back i0 -> deep_enough K true timeline (pace_fn timeline) t0) ->
  (goes_forth (length timeline) i0 -> deep_enough K false timeline (pace_fn timeline) t0) ->
  length timeline + length (pace_fn timeline) <= fuel ->
  exists tr st',
    call cb K i0 gi pace_fn fuel s_init [length timeline] timeline = (tr, Ok st') /\
    outputs_ok (store_rel cb) timeline i0 p0 tr (st_xx st').
Proof.
  intros; edestruct (@call_total T TO TL S X Y) as (tr & st' & ? & ? & _); eauto.
Qed.

(** For the depth of all integrators of the package (2) no condition on the
    number of grid points is needed. *)
Theorem C01_outputs_stored_depth2 (cb : callbacks T S X Y) i0 gi pace_fn fuel s_init (timeline : list T) p0 :
  total_cb cb -> nonadaptive cb ->
  valid_timeline timeline -> start_index (length timeline) i0 p0 ->
  length timeline + length (pace_fn timeline) <= fuel ->
  exists tr st',
    call cb 2 i0 gi pace_fn fuel s_init [length timeline] timeline = (tr, Ok st') /\
    outputs_ok (store_rel cb) timeline i0 p0 tr (st_xx st').
Proof.
  intros TC NA V SI HF. destruct (valid_split timeline i0 p0 V SI) as (t0 & N0 & I0).
  eapply C01_outputs_stored; eauto; intros _; apply deep_two; auto.
Qed.

(** C02: the time points visited are the merged grid. *)
Theorem C02_merged_grid (cb : callbacks T S X Y) K i0 gi pace_fn fuel s_init (timeline : list T) p0 t0 :
  total_cb cb -> nonadaptive cb -> 2 <= K ->
  valid_timeline timeline -> start_index (length timeline) i0 p0 -> nth_error timeline p0 = Some t0 ->
  (goes_back i0 -> deep_enough K true timeline (pace_fn timeline) t0) ->
  (goes_forth (length timeline) i0 -> deep_enough K false timeline (pace_fn timeline) t0) ->
  length timeline + length (pace_fn timeline) <= fuel ->
  exists tr st',
    call cb K i0 gi pace_fn fuel s_init [length timeline] timeline = (tr, Ok st') /\
    (goes_back i0 -> grid_spec true timeline (pace_fn timeline) t0 (visited true tr)) /\
    (~ goes_back i0 -> visited true tr = []) /\
    (goes_forth (length timeline) i0 ->
       grid_spec false timeline (pace_fn timeline) t0 (visited false tr)) /\
    (~ goes_forth (length timeline) i0 -> visited false tr = []).
Proof.
  intros; edestruct (@call_total T TO TL S X Y) as (tr & st' & EC & O & GB & GF); eauto.
  exists tr, st'. split; [exact EC|]. split; [exact GB|]. split; [apply O|]. split; [exact GF|apply O].
Qed.

(** C03: whatever [next] does to the step lengths.  A run that ends normally has
    written every entry from a state at exactly that time, along strictly monotone
    times. *)
Theorem C03_adaptive_outputs (cb : callbacks T S X Y) K i0 gi pace_fn fuel s_init shape (timeline : list T) tr st' :
  begin_fills cb ->
  call cb K i0 gi pace_fn fuel s_init shape timeline = (tr, Ok st') ->
  exists p0, start_index (length timeline) i0 p0 /\
    outputs_ok (store_rel cb) timeline i0 p0 tr (st_xx st') /\
    StronglySorted (before true) (visited true tr) /\
    StronglySorted (before false) (visited false tr).
Proof.
  intros BF H. destruct (call_any _ _ _ _ _ _ _ _ _ _ _ BF H) as (_ & _ & _ & p0 & t0 & ? & ? & ? & ? & ? & _).
  exists p0; auto.
Qed.

(** A bad step is the last thing that happens, and the outcome is RuntimeError
    (for every callbacks, timeline, starting point; hence nothing is stored
    after it). *)
Theorem C03_bad_step_ends (cb : callbacks T S X Y) K i0 gi pace_fn fuel s_init shape (timeline : list T)
        tr out tr1 tr2 r sw xw target s' x' :
  call cb K i0 gi pace_fn fuel s_init shape timeline = (tr, out) ->
  tr = tr1 ++ EvNext r sw xw target s' x' :: tr2 ->
  bad_step r (last sw target) target s' ->
  out = Err RuntimeError /\ tr2 = [].
Proof.
  intros H -> B.
  assert (Q := trace_ok_call cb K i0 gi pace_fn fuel s_init shape timeline). rewrite H in Q.
  unfold trace_ok in Q. simpl in Q.
  assert (NF : ~ Forall (@ev_good T TO X Y) (tr1 ++ EvNext r sw xw target s' x' :: tr2)).
  { intro F. apply Forall_app in F. destruct F as [_ F]. inversion_clear F as [|? ? G _]. apply G, B. }
  destruct out as [a|e]; [contradiction|]. destruct Q as [Q|(-> & tr0 & ev & E & F & G)]; [contradiction|].
  split; auto. destruct tr2 as [|e2 tr2]; auto. exfalso.
  destruct (exists_last (l := e2 :: tr2)) as (q & z & Ez); [discriminate|]. rewrite Ez in E.
  assert (tr0 = tr1 ++ EvNext r sw xw target s' x' :: q).
  { change (tr1 ++ EvNext r sw xw target s' x' :: q ++ [z])
      with (tr1 ++ (EvNext r sw xw target s' x' :: q) ++ [z]) in E.
    rewrite app_assoc in E. apply app_inj_tail in E. symmetry; apply E. }
  subst tr0. apply Forall_app in F. destruct F as [_ F]. inversion_clear F as [|? ? G' _]. apply G', B.
Qed.

(** With callbacks that do not raise, a bad step is the only way to fail
    (besides running forever, which is what OutOfFuel for all fuels means). *)
Theorem C03_only_failure (cb : callbacks T S X Y) K i0 gi pace_fn fuel s_init (timeline : list T) p0 t0 tr e :
  total_cb cb -> 2 <= K -> valid_timeline timeline -> start_index (length timeline) i0 p0 ->
  nth_error timeline p0 = Some t0 ->
  (goes_back i0 -> deep_enough K true timeline (pace_fn timeline) t0) ->
  (goes_forth (length timeline) i0 -> deep_enough K false timeline (pace_fn timeline) t0) ->
  call cb K i0 gi pace_fn fuel s_init [length timeline] timeline = (tr, Err e) ->
  e = OutOfFuel \/
  (e = RuntimeError /\ exists r tr0 sw0 xw0 target s' x',
     tr = tr0 ++ [EvNext r sw0 xw0 target s' x'] /\ bad_step r (last sw0 target) target s').
Proof. exact (call_errors cb K i0 gi pace_fn fuel s_init timeline p0 t0 tr e). Qed.

(** C04: validation. *)
Theorem C04_validation (cb : callbacks T S X Y) K i0 gi pace_fn fuel s_init shape (timeline : list T) :
  total_cb cb ->
  let out := call cb K i0 gi pace_fn fuel s_init shape timeline in
  (bad_value K shape timeline (pace_fn timeline) i0 <-> snd out = Err ValueError) /\
  (bad_start K shape timeline i0 <-> snd out = Err IndexError) /\
  (bad_value K shape timeline (pace_fn timeline) i0 \/ bad_start K shape timeline i0 -> fst out = []).
Proof. exact (call_validation cb K i0 gi pace_fn fuel s_init shape timeline). Qed.

(** C05: negative indices; [-len] is covered by the next theorem. *)
Theorem C05_negative_index (cb : callbacks T S X Y) K i0 gi pace_fn fuel s_init shape (timeline : list T) :
  (- Z.of_nat (length timeline) < i0 < 0)%Z ->
  call cb K i0 gi pace_fn fuel s_init shape timeline =
  call cb K (i0 + Z.of_nat (length timeline)) gi pace_fn fuel s_init shape timeline.
Proof. exact (call_negative cb K i0 gi pace_fn fuel s_init shape timeline). Qed.

(** i0 = -len runs an additional one point backward pass; for one step methods
    the outcome is that of i0 = 0 if [begin] has no side effects. *)
Theorem C05_minus_len (cb : callbacks T S X Y) gi pace_fn fuel s_init (timeline : list T) f out x0 :
  simple_cb cb f out -> total_cb cb -> nonadaptive cb ->
  (forall iv s t, cb_begin cb iv s [t] = Ok (s, [x0])) ->
  valid_timeline timeline ->
  length timeline + length (pace_fn timeline) <= fuel ->
  exists tr st' tr2 st2,
    call cb 2 (- Z.of_nat (length timeline)) gi pace_fn fuel s_init [length timeline] timeline = (tr, Ok st') /\
    call cb 2 0 gi pace_fn fuel s_init [length timeline] timeline = (tr2, Ok st2) /\
    st_xx st' = st_xx st2 /\ st_s st' = st_s st2.
Proof. exact (call_minus_len cb gi pace_fn fuel s_init timeline f out x0). Qed.

(** Which passes run, and what is stored at the starting point: the first of the
    values given by [begin]. *)
Theorem C05_passes (cb : callbacks T S X Y) K i0 gi pace_fn fuel s_init shape (timeline : list T) tr st' :
  begin_fills cb ->
  call cb K i0 gi pace_fn fuel s_init shape timeline = (tr, Ok st') ->
  exists p0, start_index (length timeline) i0 p0 /\
    (forall r w, In w (stores r tr) -> st_idx w = p0 ->
       exists sw xw, In (EvBegin r (st_time w :: sw) (st_x w :: xw)) tr) /\
    ((exists sw xw, In (EvBegin true sw xw) tr) <-> i0 <> 0%Z) /\
    ((exists sw xw, In (EvBegin false sw xw) tr) <->
       i0 = 0%Z \/ (i0 <> (-1)%Z /\ i0 <> (Z.of_nat (length timeline) - 1)%Z)).
Proof.
  intros BF H. destruct (call_any _ _ _ _ _ _ _ _ _ _ _ BF H) as (_ & _ & _ & p0 & t0 & ? & ? & ? & ? & ? & ? & P).
  exists p0. split; auto. split; auto. split; symmetry; [exact (P true) | exact (P false)].
Qed.

(** C06: counters cover both passes. *)
Theorem C06_counters (cb : callbacks T S X Y) i0 pace_fn fuel s_init shape (timeline : list T) tr st' :
  begin_fills cb ->
  call cb 2 i0 true pace_fn fuel s_init shape timeline = (tr, Ok st') ->
  exists p0 t0 tmin tmax, start_index (length timeline) i0 p0 /\ nth_error timeline p0 = Some t0 /\
    hd_error timeline = Some tmin /\ nth_error timeline (length timeline - 1) = Some tmax /\
    st_info st' = Some (mkInfo t0 tmin tmax (nsteps tr) (length timeline - 1)).
Proof. exact (call_counters cb i0 pace_fn fuel s_init shape timeline tr st'). Qed.

(** With steps never shortened the number of computed steps is that of the points of the whole merged
    grid but one. *)
Theorem C06_computed_steps (cb : callbacks T S X Y) i0 pace_fn fuel s_init (timeline : list T) p0 tmin g :
  total_cb cb -> nonadaptive cb -> valid_timeline timeline ->
  start_index (length timeline) i0 p0 -> hd_error timeline = Some tmin ->
  length timeline + length (pace_fn timeline) <= fuel ->
  grid_spec false timeline (pace_fn timeline) tmin g ->
  exists tr st' inf,
    call cb 2 i0 true pace_fn fuel s_init [length timeline] timeline = (tr, Ok st') /\
    st_info st' = Some inf /\ Datatypes.S (computed_steps inf) = length g /\
    Datatypes.S (stored_steps inf) = length timeline.
Proof. exact (call_computed cb i0 pace_fn fuel s_init timeline p0 tmin g). Qed.
End P.

Print Assumptions C01_outputs_stored.
Print Assumptions C01_outputs_stored_depth2.
Print Assumptions C02_merged_grid.
Print Assumptions C03_adaptive_outputs.
Print Assumptions C03_bad_step_ends.
Print Assumptions C03_only_failure.
Print Assumptions C04_validation.
Print Assumptions C05_negative_index.
Print Assumptions C05_minus_len.
Print Assumptions C05_passes.
Print Assumptions C06_counters.
Print Assumptions C06_computed_steps.

(** *** Concrete cases *)

(** one step method: x' = x + (t' - t) * 10, counting steps in its state *)
Definition ex_cb : callbacks Z nat Z Z :=
  mkCb (fun _ s sw => Ok (s, map (fun _ => 7%Z) sw))
       (fun _ s sw t xw => Ok (Datatypes.S s, t, (last xw 0 + 10 * (t - last sw 0))%Z))
       (fun _ s i t x => Ok (s, x))
       (fun _ s => Ok s).
Lemma ex_cb_total : total_cb ex_cb.
Proof.
  split; [|split; [|split]]; simpl; intros.
  - exists s, (map (fun _ => 7%Z) sw). split; auto. apply map_length.
  - eexists _, _, _; reflexivity.
  - eexists _, _; reflexivity.
  - eexists; reflexivity.
Qed.
Lemma ex_cb_nonadaptive : nonadaptive ex_cb.
Proof. intros iv s sw t xw s' t' x' H. simpl in H. congruence. Qed.
Lemma ex_cb_simple : simple_cb ex_cb (fun s t t' x => (Datatypes.S s, (x + 10 * (t' - t))%Z)) (fun x => x).
Proof. repeat split. Qed.
Definition ex_tl : list Z := [-3; 0; 2; 9]%Z.
Lemma ex_tl_valid : valid_timeline ex_tl.
Proof.
  split; [discriminate|]. split; [repeat constructor|].
  repeat constructor; reflexivity.
Qed.

(** two-sided run with unsorted, duplicated and out of range step points; the
    counters count the steps of both passes, whereas the class documentation says
    "info ... pertaining to the forward part of the integration" *)
Example C01_example :
  let out := call ex_cb 2 (-2) true (fun _ => [5; 1; 20; 1; -1; 2]%Z) 10 0 [4] ex_tl in
  exists tr st', out = (tr, Ok st') /\
    st_xx st' = [Some (-43); Some (-13); Some 7; Some 77]%Z /\
    visited true tr = [2; 1; 0; -1; -3]%Z /\ visited false tr = [2; 5; 9]%Z /\
    st_info st' = Some (mkInfo 2 (-3) 9 6 3)%Z /\
    goes_back (-2) /\ goes_forth 4 (-2).
Proof.
  vm_compute. eexists _, _. repeat split; try reflexivity; try discriminate; right; split; discriminate.
Qed.

(** C06: the documentation ("forward part only") is not what happens: the two-sided
    run above makes 2 forward steps, and reports 6. *)
Theorem C06_doc_forward_only_refuted :
  exists (cb : callbacks Z nat Z Z) i0 pace_fn timeline tr st' inf,
    total_cb cb /\ nonadaptive cb /\ valid_timeline timeline /\
    call cb 2 i0 true pace_fn 10 0 [length timeline] timeline = (tr, Ok st') /\
    st_info st' = Some inf /\
    Datatypes.S (computed_steps inf) <> length (visited false tr).
Proof.
  exists ex_cb, (-2)%Z, (fun _ => [5; 1; 20; 1; -1; 2]%Z), ex_tl. eexists _, _, _.
  split; [exact ex_cb_total|]. split; [exact ex_cb_nonadaptive|]. split; [exact ex_tl_valid|].
  split; [vm_compute; reflexivity|]. split; [reflexivity|]. vm_compute. discriminate.
Qed.
Print Assumptions C06_doc_forward_only_refuted.

(** C04: a decreasing timeline, a repeated point, a bad index. *)
Example C04_example :
  snd (call ex_cb 2 0 true (fun _ => []) 10 0 [3] [0; 2; 1]%Z) = Err ValueError /\
  snd (call ex_cb 2 0 true (fun _ => []) 10 0 [3] [0; 1; 1]%Z) = Err ValueError /\
  snd (call ex_cb 2 0 true (fun _ => []) 10 0 [2; 2] [0; 1; 2; 3]%Z) = Err ValueError /\
  snd (call ex_cb 2 3 true (fun _ => []) 10 0 [3] [0; 1; 2]%Z) = Err IndexError /\
  snd (call ex_cb 2 (-4) true (fun _ => []) 10 0 [3] [0; 1; 2]%Z) = Err IndexError /\
  snd (call ex_cb 4 0 true (fun _ => []) 10 0 [2] [0; 1]%Z) = Err ValueError.
Proof. vm_compute; auto 10. Qed.

(** adaptive method: never steps more than 2 *)
Definition ex_ad : callbacks Z nat Z Z :=
  mkCb (fun _ s sw => Ok (s, map (fun _ => 7%Z) sw))
       (fun _ s sw t xw => Ok (Datatypes.S s,
          (last sw 0 + Z.max (-2) (Z.min 2 (t - last sw 0)))%Z, (last xw 0 + 1)%Z))
       (fun _ s i t x => Ok (s, x))
       (fun _ s => Ok s).
Example C03_example : exists tr st',
  call ex_ad 2 1 true (fun _ => [4; 5]%Z) 20 0 [4] ex_tl = (tr, Ok st') /\
  visited false tr = [0; 2; 4; 5; 7; 9]%Z /\ visited true tr = [0; -2; -3]%Z /\
  st_xx st' = [Some 9; Some 7; Some 8; Some 12]%Z.
Proof. eexists _, _. vm_compute. repeat split; reflexivity. Qed.
(** a method that overshoots *)
Definition ex_bad : callbacks Z nat Z Z :=
  mkCb (fun _ s sw => Ok (s, map (fun _ => 7%Z) sw))
       (fun _ s sw t xw => Ok (Datatypes.S s, (t + 1)%Z, (last xw 0 + 1)%Z))
       (fun _ s i t x => Ok (s, x))
       (fun _ s => Ok s).
Example C03_example_bad :
  call ex_bad 2 0 true (fun _ => []) 20 0 [4] ex_tl =
    ([EvBegin false [-3] [7]; EvStore false 0 (-3) 7 7; EvNext false [-3] [7] 0 1 8]%Z, Err RuntimeError).
Proof. reflexivity. Qed.

(** C05: -len, and the one point timeline *)
Example C05_example :
  rmap (@st_xx _ _ _) (snd (call ex_cb 2 (-4) true (fun _ => []) 10 0 [4] ex_tl)) =
  rmap (@st_xx _ _ _) (snd (call ex_cb 2 0 true (fun _ => []) 10 0 [4] ex_tl)) /\
  rmap (@st_xx _ _ _) (snd (call ex_cb 2 (-1) true (fun _ => []) 10 0 [1] [5%Z])) = Ok [Some 7%Z].
Proof. vm_compute; auto. Qed.

(** doubles: 0.0, 1.0, nan and negative zero *)
Definition f0 : float64 := B754_zero false.
Definition fm0 : float64 := B754_zero true.
Definition f1 : float64 := @B754_finite 53 1024 false 4503599627370496 (-52) eq_refl.
Definition f2 : float64 := @B754_finite 53 1024 false 4503599627370496 (-51) eq_refl.
Definition fnan : float64 := B754_nan.
Definition ex_fl : callbacks float64 nat float64 float64 :=
  mkCb (fun _ s sw => Ok (s, sw)) (fun _ s sw t xw => Ok (Datatypes.S s, t, t))
       (fun _ s i t x => Ok (s, x)) (fun _ s => Ok s).
Example C01_example_float :
  let out := call ex_fl 2 0 true (fun _ => [f1; fnan; fm0]) 10 0 [2] [f0; f2] in
  exists tr st', out = (tr, Ok st') /\ length (visited false tr) = 3 /\
    snd (call ex_fl 2 0 true (fun _ => []) 10 0 [2] [f0; fnan]) = Err ValueError /\
    snd (call ex_fl 2 0 true (fun _ => []) 10 0 [2] [fm0; f0]) = Err ValueError.
Proof. eexists _, _. vm_compute. repeat split; reflexivity. Qed.
Definition C01_float := @C01_outputs_stored_depth2 float64 TOrd_float64 TOrdLaws_float64.
Print Assumptions C01_float.
