(** Properties of the preset processes: C14 - C17. *)
From Coq Require Import String List Arith Bool ZArith Reals Lra Lia Sorting.Sorted Sorting.Permutation.
From Verif Require Import Base BaseOrd BaseNum BaseArr M_paths S_paths S_run L_ord L_paths L_paths8
  M_sde S_sde S_sdes L_sde L_sde2 L_sde3 L_sde4 L_pack L_sim L_sdes L_sdes2
  M_presets S_presets L_presets L_presets2 L_presets3 L_presets4 L_presets5.
Import ListNotations.

(** *** C14 *)
Section C14.
Context {Wd I : Type}.
Open Scope R_scope.
Variables (dw : Wd -> R -> R -> res (Wd * arr R)) (vshape : list nat) (paths : nat) (gi : bool) (args : dict (param R R)).

(** every run of cox_ingersoll_ross_process follows the recursion with the positive part of x *)
Theorem C14_cir_run x0 i0 pace_fn fuel wd (inf : I) timeline p0 t0 wd' inf' xx :
  valid_timeline timeline -> start_index (length timeline) i0 p0 -> nth_error timeline p0 = Some t0 ->
  (length timeline + length (pace_fn timeline) <= fuel)%nat ->
  let ig := cir_process dw gi vshape paths x0 args in
  sde_call Rminus ig i0 pace_fn fuel (wd, inf) [length timeline] timeline = Ok ((wd', inf'), xx) ->
  run_of ig (cir_step args dw (vshape ++ [paths])) timeline (pace_fn timeline) i0 p0 t0 wd wd' xx.
Proof.
  intros V0 SI N0 HF ig H. eapply run_imp; [|exact (sde_call_run _ _ _ _ _ _ _ _ p0 t0 _ _ _ V0 SI N0 HF H)].
  intros. eapply cir_next_step. eassumption.
Qed.

(** where x is not positive the diffusion vanishes, and the drift is k*theta *)
Theorem C14_cir_negative w wd t t' x wd' x' theta k ix :
  cir_step args dw w wd t t' x wd' x' -> par args "theta" t theta -> par args "k" t k -> inb w ix -> x ix <= 0 ->
  x' ix = x ix + bget k ix * bget theta ix * (t' - t) /\
  (0 < bget k ix -> 0 < bget theta ix -> t < t' -> x ix < x' ix).
Proof.
  intros (th & k' & xi & z & (zt & Et & ->) & (zk & Ek & ->) & _ & _ & H) (zt' & Et' & ->) (zk' & Ek' & ->) HI NEG.
  rewrite Et in Et'. injection Et' as <-. rewrite Ek in Ek'. injection Ek' as <-.
  rewrite (H ix HI), Rmax_right, sqrt_0 by lra.
  assert (E : forall a b c d e : R, a + b * (c - 0) * d + e * 0 * (bget z ix) = a + b * c * d) by (intros; ring).
  rewrite E. split; auto. intros K TH LT.
  assert (0 < bget (peval t zk) ix * bget (peval t zt) ix * (t' - t)); [|lra].
  apply Rmult_lt_0_compat; [apply Rmult_lt_0_compat; auto|lra].
Qed.

Variable set_order : list string -> list string.
Hypothesis PERM : forall l, Permutation (set_order l) l.
Let addaxis := force_addaxis false vshape.

Theorem C14_full_heston_run x0 y0 i0 pace_fn fuel wd inf timeline p0 t0 wd' inf' xx :
  valid_timeline timeline -> start_index (length timeline) i0 p0 -> nth_error timeline p0 = Some t0 ->
  (length timeline + length (pace_fn timeline) <= fuel)%nat ->
  let ig := full_heston_process dw set_order gi vshape paths x0 y0 args in
  sde_call Rminus ig i0 pace_fn fuel (wd, inf) [length timeline] timeline = Ok ((wd', inf'), xx) ->
  run_of ig (heston_step args dw (vshape ++ [paths]) (comp addaxis vshape 0) (comp addaxis vshape 1))
         timeline (pace_fn timeline) i0 p0 t0 wd wd' xx.
Proof.
  intros V0 SI N0 HF ig H. eapply run_imp; [|exact (sde_call_run _ _ _ _ _ _ _ _ p0 t0 _ _ _ V0 SI N0 HF H)].
  intros. eapply (heston_next_step dw vshape paths args set_order PERM ig); auto.
Qed.
Theorem C14_heston_run x0 y0 i0 pace_fn fuel wd inf timeline p0 t0 wd' inf' xx :
  valid_timeline timeline -> start_index (length timeline) i0 p0 -> nth_error timeline p0 = Some t0 ->
  (length timeline + length (pace_fn timeline) <= fuel)%nat ->
  let ig := heston_process dw set_order gi vshape paths x0 y0 args in
  sde_call Rminus ig i0 pace_fn fuel (wd, inf) [length timeline] timeline = Ok ((wd', inf'), xx) ->
  run_of ig (heston_step args dw (vshape ++ [paths]) (comp addaxis vshape 0) (comp addaxis vshape 1))
         timeline (pace_fn timeline) i0 p0 t0 wd wd' xx.
Proof.
  intros V0 SI N0 HF ig H. eapply run_imp; [|exact (sde_call_run _ _ _ _ _ _ _ _ p0 t0 _ _ _ V0 SI N0 HF H)].
  intros. eapply (heston_next_step dw vshape paths args set_order PERM ig); auto.
Qed.

(** where the variance y is not positive, both diffusion terms vanish *)
Theorem C14_heston_negative vp cx cy wd t t' X wd' X' mu theta k ix :
  heston_step args dw vp cx cy wd t t' X wd' X' ->
  par args "mu" t mu -> par args "theta" t theta -> par args "k" t k -> inb vp ix -> X (cy ix) <= 0 ->
  X' (cx ix) = X (cx ix) + bget mu ix * (t' - t) /\
  X' (cy ix) = X (cy ix) + bget k ix * bget theta ix * (t' - t) /\
  (0 < bget k ix -> 0 < bget theta ix -> t < t' -> X (cy ix) < X' (cy ix)).
Proof.
  intros (mu' & sg & th & k' & xi & z & (zm & Em & ->) & _ & (zt & Et & ->) & (zk & Ek & ->) & _ & _ & H)
         (zm' & Em' & ->) (zt' & Et' & ->) (zk' & Ek' & ->) HI NEG.
  rewrite Em in Em'. injection Em' as <-. rewrite Et in Et'. injection Et' as <-. rewrite Ek in Ek'. injection Ek' as <-.
  destruct (H ix HI) as [H1 H2]. rewrite H1, H2, Rmax_right, sqrt_0 by lra.
  split; [field|]. 
  assert (E : forall a b c d e f : R, a + b * (c - 0) * d + e * 0 * f = a + b * c * d) by (intros; ring).
  rewrite E. split; auto. intros K TH LT.
  assert (0 < bget (peval t zk) ix * bget (peval t zt) ix * (t' - t)); [|lra].
  apply Rmult_lt_0_compat; [apply Rmult_lt_0_compat; auto|lra].
Qed.
End C14.
Print Assumptions C14_cir_run.
Print Assumptions C14_cir_negative.
Print Assumptions C14_full_heston_run.
Print Assumptions C14_heston_run.
Print Assumptions C14_heston_negative.

(** in numbers with an invalid value, where the square root of a negative number is invalid:
    runs with valid parameters and source values give valid results, whatever the sign of the state *)
Section C14nan.
Context {Wd I : Type}.
#[local] Existing Instance Num_nan | 0.
Notation V := (option R).
Variables (dw : Wd -> R -> V -> res (Wd * arr V)) (vshape : list nat) (paths : nat) (gi : bool) (args : dict (param R V)).

Theorem C14_cir_no_nan x0 i0 pace_fn fuel wd (inf : I) timeline p0 t0 wd' inf' xx :
  let w := vshape ++ [paths] in
  valid_args args w ["theta"; "k"; "xi"]%string -> valid_dw dw w -> valid_arr w x0 ->
  valid_timeline timeline -> start_index (length timeline) i0 p0 -> nth_error timeline p0 = Some t0 ->
  length timeline + length (pace_fn timeline) <= fuel ->
  sde_call nan_sub (cir_process (I := I) dw gi vshape paths x0 args) i0 pace_fn fuel (wd, inf)
           [length timeline] timeline = Ok ((wd', inf'), xx) ->
  length xx = length timeline /\
  forall i y, nth_error xx i = Some y -> exists b, y = Some b /\ forall ix, inb w ix -> b ix <> None.
Proof. apply cir_no_nan. Qed.

Variable set_order : list string -> list string.
Let w := sdes_wshape 2 (force_addaxis false vshape) vshape ++ [paths].
Let vp := vshape ++ [paths].
Theorem C14_full_heston_no_nan x0 y0 i0 pace_fn fuel wd inf timeline p0 t0 wd' inf' xx :
  valid_args args vp ["mu"; "sigma"; "theta"; "k"; "xi"]%string -> valid_dw dw w ->
  valid_arr vp (amap nlog x0) -> valid_arr vp y0 ->
  valid_timeline timeline -> start_index (length timeline) i0 p0 -> nth_error timeline p0 = Some t0 ->
  length timeline + length (pace_fn timeline) <= fuel ->
  sde_call nan_sub (full_heston_process dw set_order gi vshape paths x0 y0 args) i0 pace_fn fuel (wd, inf)
           [length timeline] timeline = Ok ((wd', inf'), xx) ->
  length xx = length timeline /\
  forall i b, nth_error xx i = Some b -> exists Y X Z, b = Some Y /\
    full_heston_result vshape paths Y = Ok (X, Z) /\ valid_arr vp X /\ valid_arr vp Z.
Proof. apply full_no_nan. Qed.
Theorem C14_heston_no_nan x0 y0 i0 pace_fn fuel wd inf timeline p0 t0 wd' inf' xx :
  valid_args args vp ["mu"; "sigma"; "theta"; "k"; "xi"]%string -> valid_dw dw w ->
  valid_arr vp (amap nlog x0) -> valid_arr vp y0 ->
  valid_timeline timeline -> start_index (length timeline) i0 p0 -> nth_error timeline p0 = Some t0 ->
  length timeline + length (pace_fn timeline) <= fuel ->
  sde_call nan_sub (heston_process dw set_order gi vshape paths x0 y0 args) i0 pace_fn fuel (wd, inf)
           [length timeline] timeline = Ok ((wd', inf'), xx) ->
  length xx = length timeline /\
  forall i b, nth_error xx i = Some b -> exists y, b = Some y /\ valid_arr vp (heston_result vshape paths y).
Proof. apply short_no_nan. Qed.
End C14nan.
Print Assumptions C14_cir_no_nan.
Print Assumptions C14_full_heston_no_nan.
Print Assumptions C14_heston_no_nan.

(** *** C15 *)
Section C15.
Context {T : Type} {TO : TOrd T} {TL : TOrdLaws T} {V : Type} {NV : Num V} {Wd : Type}.
Variable tsub : T -> T -> V.
Variables (dw : Wd -> T -> V -> res (Wd * arr V)) (set_order : list string -> list string)
  (gi : bool) (vshape : list nat) (paths : nat) (x0 y0 : arr V) (args : dict (param T V)).
Notation full := (full_heston_process dw set_order gi vshape paths x0 y0 args).
Notation short := (heston_process dw set_order gi vshape paths x0 y0 args).

(** one completes if and only if the other does, with the same final state (that of the
    sources, and the info) and the same prices *)
Theorem C15_heston_from_full i0 pace_fn fuel wd inf (timeline : list T) p0 s' xx :
  valid_timeline timeline -> start_index (length timeline) i0 p0 ->
  length timeline + length (pace_fn timeline) <= fuel ->
  sde_call tsub full i0 pace_fn fuel (wd, inf) [length timeline] timeline = Ok (s', xx) ->
  exists xx2, sde_call tsub short i0 pace_fn fuel (wd, inf) [length timeline] timeline = Ok (s', xx2) /\
    Forall2 (same_price vshape paths) xx xx2.
Proof. apply full_to_short. Qed.
Theorem C15_full_from_heston i0 pace_fn fuel wd inf (timeline : list T) p0 s' xx2 :
  valid_timeline timeline -> start_index (length timeline) i0 p0 ->
  length timeline + length (pace_fn timeline) <= fuel ->
  sde_call tsub short i0 pace_fn fuel (wd, inf) [length timeline] timeline = Ok (s', xx2) ->
  exists xx, sde_call tsub full i0 pace_fn fuel (wd, inf) [length timeline] timeline = Ok (s', xx) /\
    Forall2 (same_price vshape paths) xx xx2.
Proof. apply short_to_full. Qed.
End C15.

Section C15R.
Context {Wd : Type}.
Open Scope R_scope.
Variables (dw : Wd -> R -> R -> res (Wd * arr R)) (set_order : list string -> list string)
  (gi : bool) (vshape : list nat) (paths : nat) (x0 y0 : arr R) (args : dict (param R R)).
Let vp := (vshape ++ [paths])%list.

Theorem C15_start_full i0 pace_fn fuel wd inf timeline p0 t0 wd' inf' xx :
  valid_timeline timeline -> start_index (length timeline) i0 p0 -> nth_error timeline p0 = Some t0 ->
  (length timeline + length (pace_fn timeline) <= fuel)%nat ->
  (forall ix, inb vp ix -> 0 < bget x0 ix) ->
  sde_call Rminus (full_heston_process dw set_order gi vshape paths x0 y0 args) i0 pace_fn fuel (wd, inf)
           [length timeline] timeline = Ok ((wd', inf'), xx) ->
  exists Y X Z, nth_error xx p0 = Some (Some Y) /\ full_heston_result vshape paths Y = Ok (X, Z) /\
    shp X = vp /\ shp Z = vp /\
    forall ix, inb vp ix -> dat X ix = bget x0 ix /\ dat Z ix = bget y0 ix.
Proof.
  intros V0 SI N0 HF POS H.
  destruct (full_start Rminus dw set_order gi vshape paths x0 y0 args i0 pace_fn fuel wd inf timeline p0 t0 wd' inf' xx
     V0 SI N0 HF H) as (Y & X & Z & E1 & E2 & S1 & S2 & E3).
  exists Y, X, Z. split; auto. split; auto. split; auto. split; auto. intros ix HI. destruct (E3 ix HI) as [-> ->].
  split; auto. apply exp_ln; auto.
Qed.
Theorem C15_start_heston i0 pace_fn fuel wd inf timeline p0 t0 wd' inf' xx :
  valid_timeline timeline -> start_index (length timeline) i0 p0 -> nth_error timeline p0 = Some t0 ->
  (length timeline + length (pace_fn timeline) <= fuel)%nat ->
  (forall ix, inb vp ix -> 0 < bget x0 ix) ->
  sde_call Rminus (heston_process dw set_order gi vshape paths x0 y0 args) i0 pace_fn fuel (wd, inf)
           [length timeline] timeline = Ok ((wd', inf'), xx) ->
  exists y, nth_error xx p0 = Some (Some y) /\
    forall ix, inb vp ix -> dat (heston_result vshape paths y) ix = bget x0 ix.
Proof.
  intros V0 SI N0 HF POS H.
  destruct (short_start Rminus dw set_order gi vshape paths x0 y0 args i0 pace_fn fuel wd inf timeline p0 t0 wd' inf' xx
     V0 SI N0 HF H) as (y & E1 & E2).
  exists y. split; auto. intros ix HI. rewrite (E2 ix HI). apply exp_ln; auto.
Qed.
End C15R.
Print Assumptions C15_heston_from_full.
Print Assumptions C15_full_from_heston.
Print Assumptions C15_start_full.
Print Assumptions C15_start_heston.

(** *** C16 *)
Section C16.
Context {T : Type} {TO : TOrd T} {TL : TOrdLaws T} {V : Type} {NV : Num V} {Wd I If : Type}.
Variable tsub : T -> T -> V.
Theorem C16_hull_white_sum (dw : Wd -> T -> V -> res (Wd * arr V)) gi vshape F paths x0 args
    (dwf : nat -> Wd -> T -> V -> res (Wd * arr V)) (gif : nat -> bool) (x0f : nat -> arr V) (argsf : nat -> dict (param T V))
    i0 pace_fn fuel wd (inf : I) (inff : If) (timeline : list T) p0 wd' inf' xx :
  let vp := vshape ++ [paths] in
  (forall f, f < F -> slice_src vp f dw (dwf f) /\ slice_of vp f x0 (x0f f) /\ slice_args vp f args (argsf f)) ->
  valid_timeline timeline -> start_index (length timeline) i0 p0 ->
  length timeline + length (pace_fn timeline) <= fuel ->
  sde_call tsub (hull_white_process dw gi vshape F paths x0 args) i0 pace_fn fuel (wd, inf)
           [length timeline] timeline = Ok ((wd', inf'), xx) ->
  exists xxs : list (list (option (buf V))),
    length xxs = F /\
    (forall f xxf, nth_error xxs f = Some xxf -> exists inff',
       sde_call tsub (ou_process (dwf f) (gif f) vshape paths (x0f f) (argsf f)) i0 pace_fn fuel (wd, inff)
                [length timeline] timeline = Ok ((wd', inff'), xxf) /\ length xxf = length xx) /\
    forall i b, nth_error xx i = Some b ->
      exists y ys, b = Some y /\ Forall2 (fun xxf yf => nth_error xxf i = Some (Some yf)) xxs ys /\
        forall ix, inb vp ix -> y ix = sum_at ys ix.
Proof. apply hull_white_sum. Qed.
End C16.

(** one factor *)
Section C16R.
Context {Wd I If : Type}.
Open Scope R_scope.
Theorem C16_one_factor (dw dwf : Wd -> R -> R -> res (Wd * arr R)) gi gif vshape paths x0 x0f args argsf
    i0 pace_fn fuel wd (inf : I) (inff : If) (timeline : list R) p0 wd' inf' xx :
  let vp := (vshape ++ [paths])%list in
  slice_src vp 0 dw dwf -> slice_of vp 0 x0 x0f -> slice_args vp 0 args argsf ->
  valid_timeline timeline -> start_index (length timeline) i0 p0 ->
  (length timeline + length (pace_fn timeline) <= fuel)%nat ->
  sde_call Rminus (hull_white_process dw gi vshape 1 paths x0 args) i0 pace_fn fuel (wd, inf)
           [length timeline] timeline = Ok ((wd', inf'), xx) ->
  exists inff' xxf,
    sde_call Rminus (ou_process dwf gif vshape paths x0f argsf) i0 pace_fn fuel (wd, inff)
             [length timeline] timeline = Ok ((wd', inff'), xxf) /\ length xxf = length xx /\
    forall i b, nth_error xx i = Some b -> exists y y', b = Some y /\ nth_error xxf i = Some (Some y') /\
      forall ix, inb vp ix -> y ix = y' ix.
Proof.
  intros vp S1 S2 S3 V0 SI HF H.
  destruct (hull_white_sum Rminus dw gi vshape 1 paths x0 args (fun _ => dwf) (fun _ => gif) (fun _ => x0f) (fun _ => argsf)
     i0 pace_fn fuel wd inf inff timeline p0 wd' inf' xx) as (xxs & L & H1 & H2); auto.
  { intros f Hf. replace f with 0%nat by lia. auto. }
  destruct xxs as [|xxf [|]]; try discriminate.
  destruct (H1 0%nat xxf eq_refl) as (inff' & E & LE). exists inff', xxf. split; auto. split; auto.
  intros i b Hb. destruct (H2 i b Hb) as (y & ys & -> & F2 & HY).
  inversion F2 as [|? y' ? ys' N F3]; subst. inversion F3; subst. exists y, y'. split; auto. split; auto.
  intros ix HI. rewrite (HY ix HI). unfold sum_at. simpl. ring.
Qed.
End C16R.
Print Assumptions C16_hull_white_sum.
Print Assumptions C16_one_factor.

(** *** C17 *)
Section C17.
Context {T : Type} {TO : TOrd T} {TL : TOrdLaws T} {V : Type} {NV : Num V} {Wd : Type}.
Variable tsub : T -> T -> V.
Variables (dw dj : Wd -> T -> V -> res (Wd * arr V)) (dn : Wd -> arr V) (vshape : list nat) (paths : nat)
  (x0 : arr V) (args : dict (param T V)).
Notation ig := (jumpdiff_process tsub dw dj (fun wd => Some (dn wd)) true vshape paths x0 args).

(** The counters cover all steps of the last pass, which is the only one if the
    integration is in one direction ([wd1 = wd]). *)
Theorem C17_counters i0 pace_fn fuel wd inf (timeline : list T) p0 t0 wd' j' xx :
  valid_timeline timeline -> start_index (length timeline) i0 p0 -> nth_error timeline p0 = Some t0 ->
  length timeline + length (pace_fn timeline) <= fuel ->
  sde_call tsub ig i0 pace_fn fuel (wd, inf) [length timeline] timeline = Ok ((wd', j'), xx) ->
  exists rv grid wd1 t todo x l,
    (rv = false <-> goes_forth (length timeline) i0) /\
    (~ (goes_back i0 /\ goes_forth (length timeline) i0) -> wd1 = wd) /\
    grid_spec rv timeline (pace_fn timeline) t0 grid /\ grid = t :: todo /\ ig_init ig t = Ok x /\
    chain (euler_step tsub ig) wd1 t (fun ix => nlog (x ix)) todo wd' l /\
    jumps_counted tsub (vshape ++ [paths]) paths dn
                  (if rv then rev (firstn (p0 + 1) timeline) else skipn p0 timeline) (List.tl l) j'.
Proof.
  intros V0 SI N0 HF H.
  destruct (run_counted tsub dw dj dn vshape paths x0 args i0 pace_fn fuel wd inf timeline p0 t0 wd' j' xx V0 SI N0 HF H)
    as (rv & grid & wd1 & t & todo & x & l & E1 & E2 & E3 & E4 & E5 & E6 & E7).
  exists rv, grid, wd1, t, todo, x, l. repeat (split; [assumption|]). split; [|assumption].
  eapply chain_imp; [|exact E6]. intros. apply euler_next_step; auto.
  repeat constructor; simpl; intuition discriminate.
Qed.
End C17.

(** on the reals: the total of the jumps, and the average number of jumps per unit of time and path *)
Theorem C17_count_total (Wd : Type) w paths (dn : Wd -> arr R) tl (l : list (R * buf R * Wd)) j :
  jumps_counted Rminus w paths dn tl l j ->
  forall ix, inb w ix -> jump_count j ix = Rlsum (map (fun e => bget (dn (snd e)) ix) l).
Proof.
  intros (H & _) ix HI. rewrite (H ix HI).
  assert (G : forall acc, fold_left (fun acc e => nadd acc (bget (dn (snd e)) ix)) l acc
                          = (acc + Rlsum (map (fun e => bget (dn (snd e)) ix) l))%R).
  { clear H. induction l as [|a l IH]; intro acc; simpl; [ring|]. rewrite IH. simpl. ring. }
  rewrite G. simpl. ring.
Qed.
Theorem C17_rate_total (Wd : Type) w paths (dn : Wd -> arr R) tl (l : list (R * buf R * Wd)) j :
  (0 < paths)%nat -> jumps_counted Rminus w paths dn tl l j ->
  exists segs, concat segs = l /\ Forall2 (seg_of tl) (List.tl tl) segs /\
    forall i a b seg, nth_error tl i = Some a -> nth_error tl (S i) = Some b -> nth_error segs i = Some seg ->
      a <> b -> exists r, nth_error (jump_rate j) i = Some r /\
        (r * (b - a) * INR paths = Rlsum (map (fun e => asum (dn (snd e))) seg))%R.
Proof.
  intros HP (_ & _ & _ & segs & C & F & H). exists segs. split; auto. split; auto.
  intros i a b seg H1 H2 H3 NE. eexists. split; [exact (H i a b seg H1 H2 H3)|].
  apply (rate_total (fun e : R * buf R * Wd => asum (dn (snd e))) (b - a)%R paths seg); auto. lra.
Qed.
Print Assumptions C17_counters.
Print Assumptions C17_count_total.
Print Assumptions C17_rate_total.

(** *** Examples, on integers (square root: integer part; exp: powers of two; ln: log2) *)
Section Ex.
Open Scope Z_scope.
Definition cargs (l : list (string * Z)) : dict (param Z Z) := map (fun '(k, z) => (k, PConst (ascalar z))) l.
Definition ex_dw1 (n : nat) (t dt : Z) : res (nat * arr Z) :=
  Ok (S n, mkArr [2]%nat (fun ix => match ix with [0%nat] => -10 | _ => Z.of_nat n end)).
Definition vals2 (y : buf Z) : Z * Z := (y [0%nat], y [1%nat]).
Definition show {A} (r : res ((nat * A) * list (option (buf Z)))) :=
  match r with Ok ((n, _), xx) => Ok (n, map (option_map vals2) xx) | Err e => Err e end.
(** 4 -> 4 + 1*(9 - 4)*1 + 1*2*(-10) = -11 -> -11 + 9*1 + 0 *)
Example C14_ex : show (sde_call Z.sub (cir_process (I := unit) ex_dw1 false [] 2 (ascalar 4)
     (cargs [("theta"%string, 9); ("k"%string, 1); ("xi"%string, 1)])) 0 (fun _ => []) 10 (0%nat, tt) [3%nat] [0; 1; 2])
  = Ok (2%nat, [Some (4, 4); Some (-11, 9); Some (-2, 9 + 3)]).
Proof. vm_compute. reflexivity. Qed.

(** vshape (), two paths: sources of shape (2, paths) *)
Definition ex_dw2 (n : nat) (t dt : Z) : res (nat * arr Z) :=
  Ok (S n, mkArr [2; 2]%nat (fun ix => match ix with [0; 0]%nat => 1 | [0; _]%nat => 2 | [1; 0]%nat => -6 | _ => 1 end)).
Definition h_args := cargs [("mu"%string, 6); ("sigma"%string, 1); ("theta"%string, 4); ("k"%string, 1); ("xi"%string, 2)].
(** x0 = 8, y0 = 4, one step of size 1: x = 3 + (6 - 4/2) + 2*dw_x; y = 4 + 0 + 2*2*dw_y *)
Example C15_ex_full : match sde_call Z.sub (full_heston_process ex_dw2 (fun l => l) false [] 2 (ascalar 8) (ascalar 4) h_args)
     0 (fun _ => []) 10 (0%nat, mkArr [] (fun _ => 0%nat)) [3%nat] [0; 1; 2] with
  | Ok (_, xx) => map (option_map (fun y => match full_heston_result [] 2 y with
       | Ok (a, b) => Some (vals2 (dat a), vals2 (dat b)) | Err _ => None end)) xx =
       [Some (Some ((2^3, 2^3), (4, 4)));
        Some (Some ((2^(3 + 4 + 2), 2^(3 + 4 + 4)), (4 - 24, 4 + 4)));
        Some (Some ((2^(9 + 6), 2^(11 + 2 + 2*2)), (-20 + 4, 8 - 4 + 4)))]
  | Err _ => False end.
Proof. vm_compute. reflexivity. Qed.
Example C15_ex_short : match sde_call Z.sub (heston_process ex_dw2 (fun l => l) false [] 2 (ascalar 8) (ascalar 4) h_args)
     0 (fun _ => []) 10 (0%nat, mkArr [] (fun _ => 0%nat)) [3%nat] [0; 1; 2] with
  | Ok (_, xx) => map (option_map (fun y => vals2 (dat (heston_result [] 2 y)))) xx =
       [Some (2^3, 2^3); Some (2^9, 2^11); Some (2^15, 2^17)]
  | Err _ => False end.
Proof. vm_compute. reflexivity. Qed.

(** two factors, theta = (1, 3), k = (1, 2), sigma = (1, 1), x0 = (0, 5), and one path *)
Definition pair_arr (a b : Z) : arr Z := mkArr [2; 1]%nat (fun ix => match ix with (0%nat :: _) => a | _ => b end).
Definition ex_dw3 (n : nat) (t dt : Z) : res (nat * arr Z) := Ok (S n, pair_arr 10 20).
Definition ex_dw3f (f : nat) (n : nat) (t dt : Z) : res (nat * arr Z) :=
  Ok (S n, mkArr [1]%nat (fun _ => match f with 0%nat => 10 | _ => 20 end)).
Definition hw_args : dict (param Z Z) :=
  [("theta"%string, PConst (pair_arr 1 3)); ("k"%string, PConst (pair_arr 1 2)); ("sigma"%string, PConst (pair_arr 1 1))].
Definition hw_argsf (f : nat) : dict (param Z Z) :=
  match f with 0%nat => cargs [("theta"%string, 1); ("k"%string, 1); ("sigma"%string, 1)]
             | _ => cargs [("theta"%string, 3); ("k"%string, 2); ("sigma"%string, 1)] end.
Definition show1 {A} (r : res ((nat * A) * list (option (buf Z)))) :=
  match r with Ok ((n, _), xx) => Ok (n, map (option_map (fun y : buf Z => y [0%nat])) xx) | Err e => Err e end.
(** the hypotheses hold *)
Example C16_ex_slices f : (f < 2)%nat -> slice_src [1%nat] f ex_dw3 (ex_dw3f f) /\
  slice_of [1%nat] f (pair_arr 0 5) (ascalar (match f with 0%nat => 0 | _ => 5 end)) /\
  slice_args [1%nat] f hw_args (hw_argsf f).
Proof.
  intro H. assert (E : forall a b ix, inb [1%nat] ix -> bget (pair_arr a b) (ins2 f ix) = match f with 0%nat => a | _ => b end).
  { intros a b ix HI. unfold inb in HI. inversion HI as [|i ? ix' ? Hi F2]; subst. inversion F2; subst.
    assert (i = 0%nat) by lia. subst i. destruct f as [|[|]]; [reflexivity|reflexivity|lia]. }
  split; [|split].
  - intros wd t dt wd' z EQ. injection EQ as <- <-. eexists. split; [reflexivity|]. split; auto.
    intros ix HI. rewrite E by auto. unfold inb in HI. inversion HI as [|i ? ix' ? Hi F2]; subst. inversion F2; subst.
    destruct f; reflexivity.
  - split; auto. intros ix HI. rewrite E by auto. destruct f; reflexivity.
  - unfold hw_args, hw_argsf. destruct f as [|[|]]; [| |lia]; repeat (apply Forall2_cons || apply Forall2_nil);
      (split; [reflexivity|]; intro t; split; [reflexivity|]; intros ix HI; cbn [snd peval]; rewrite E by auto; reflexivity).
Qed.
(** the run: factors 0, 0 + 1 + 10 = 11, 11 - 10 + 10 and 5, 5 - 4 + 20 = 21, 21 - 36 + 20 *)
Example C16_ex : show1 (sde_call Z.sub (hull_white_process (I := unit) ex_dw3 false [] 2 1 (pair_arr 0 5) hw_args)
    0 (fun _ => []) 10 (0%nat, tt) [3%nat] [0; 1; 2]) = Ok (2%nat, [Some (0 + 5); Some (11 + 21); Some (11 + 5)]).
Proof. vm_compute. reflexivity. Qed.
Example C16_ex_0 : show1 (sde_call Z.sub (ou_process (I := unit) (ex_dw3f 0) false [] 1 (ascalar 0) (hw_argsf 0))
    0 (fun _ => []) 10 (0%nat, tt) [3%nat] [0; 1; 2]) = Ok (2%nat, [Some 0; Some 11; Some 11]).
Proof. vm_compute. reflexivity. Qed.
Example C16_ex_1 : show1 (sde_call Z.sub (ou_process (I := unit) (ex_dw3f 1) false [] 1 (ascalar 5) (hw_argsf 1))
    0 (fun _ => []) 10 (0%nat, tt) [3%nat] [0; 1; 2]) = Ok (2%nat, [Some 5; Some 21; Some 5]).
Proof. vm_compute. reflexivity. Qed.

(** jumps: the n-th evaluation of dj makes 4n jumps in the first path and 8 in the second *)
Definition ex_dj (n : nat) (t dt : Z) : res (nat * arr Z) := Ok (S n, mkArr [2]%nat (fun _ => 1)).
Definition ex_dn (n : nat) : arr Z := mkArr [2]%nat (fun ix => match ix with [0%nat] => 4 * Z.of_nat n | _ => 8 end).
Definition ex_dw0 (n : nat) (t dt : Z) : res (nat * arr Z) := Ok (n, ascalar 0).
Definition jd_args := cargs [("mu"%string, 0); ("sigma"%string, 0)].
Definition jd i0 steps timeline := match sde_call Z.sub
    (jumpdiff_process Z.sub ex_dw0 ex_dj (fun n => Some (ex_dn n)) true [] 2 (ascalar 8) jd_args)
    i0 (fun _ => steps) 20 (0%nat, mkJ [] (fun _ => 0)) [length timeline] timeline with
  | Ok ((n, j), _) => Some (n, jump_rate j, vals2 (jump_count j)) | Err _ => None end.
(** steps 0, 1, 2 | 3: (4 + 8)/2/2 + (8 + 8)/2/2 = 7, then (12 + 8)/1/2 = 10 *)
Example C17_ex : jd 0 [1] [0; 2; 3] = Some (3%nat, [7; 10; 10], (4 + 8 + 12, 8 + 8 + 8)).
Proof. vm_compute. reflexivity. Qed.
(** from an interior point: the counters are those of the forward pass only *)
Example C17_ex_interior : jd 1 [1] [0; 2; 3] = Some (3%nat, [10; 10], (12, 8)).
Proof. vm_compute. reflexivity. Qed.
End Ex.

(** numbers with an invalid value: without the truncation the result may be invalid *)
Example C14_ex_nan : nan1 sqrt (fun x => if Rlt_dec x 0 then false else true) (Some (-1)%R) = None.
Proof. simpl. destruct (Rlt_dec (-1) 0); [reflexivity|lra]. Qed.
