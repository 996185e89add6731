(** Simulations with double precision numbers: C79. *)
From Coq Require Import String List Arith Bool ZArith Reals Lra Lia.
From Flocq Require Import IEEE754.BinarySingleNaN Core.
From Verif Require Import Base BaseOrd BaseNum BaseArr BaseFloat M_float M_paths S_paths S_run L_paths8
  M_sde S_sde M_presets S_presets L_presets S_float L_float L_float2 L_float3 L_float4 L_presets2.
Import ListNotations.
Local Open Scope R_scope.

(** *** wiener_process: values that are finite are those of the path, but for rounding errors; they are finite if data
    are, and are not too large *)
Theorem C79_wiener (Wd I : Type) (fexp flog : float64 -> float64) vshape paths dw (Adm : Wd -> Prop) W delta gi
    (x0 mu sigma : arr float64) args i0 pace_fn fuel wd (inf : I) (timeline : list float64) p0 t0 :
  let NV := Num_float64 fexp flog in
  let w := (vshape ++ [paths])%list in let l := (timeline ++ pace_fn timeline)%list in let n := length l in
  near_source w l dw Adm W delta -> Adm wd ->
  const_float_arg args "mu" mu -> const_float_arg args "sigma" sigma ->
  can (shp x0) w = true -> can (shp mu) w = true -> can (shp sigma) w = true ->
  valid_timeline timeline -> start_index (length timeline) i0 p0 -> nth_error timeline p0 = Some t0 ->
  (n <= fuel)%nat -> INR n * uu <= /2 ->
  exists s' xx,
    sde_call f_sub (wiener_process (I := I) dw gi vshape paths x0 args) i0 pace_fn fuel (wd, inf) [length timeline] timeline = Ok (s', xx) /\
    length xx = length timeline /\
    forall i ti, nth_error timeline i = Some ti -> exists y, nth_error xx i = Some (Some y) /\
      forall ix P, inb w ix -> 0 <= P -> 0 <= delta ix ->
        let m := B2R (bget mu ix) in let s := B2R (bget sigma ix) in
        bounded_path l (fun t => W t ix) (B2R (bget x0 ix)) m s (B2R t0) P ->
        (is_finite (y ix) = true ->
           Rabs (B2R (y ix) - (B2R (bget x0 ix) + m * (B2R ti - B2R t0) + s * (W (B2R ti) ix - W (B2R t0) ix)))
           <= 2 * INR n * (8 * uu * P + 2 * (Rabs s * delta ix) + 8 * ((1 + Rabs m) * eta))) /\
        (finite_source w dw Adm -> in_range l (bget x0 ix) (bget mu ix) (bget sigma ix) P (delta ix) -> is_finite (y ix) = true).
Proof.
  intros NV w l n HW AD CM CS CX CMu CSi V0 SI N0 HF HN. unfold n, l in HF, HN. rewrite app_length in HF, HN.
  destruct (const_float (I := I) fexp flog vshape paths timeline (pace_fn timeline) dw Adm W delta HW (@wiener_sde float64 float64) false gi x0 mu sigma args CX CMu CSi) with (i0 := i0) (pace_fn := pace_fn) (fuel := fuel) (wd := wd) (inf := inf) (p0 := p0) (t0 := t0)
    as (s' & xx & E & LL & H); auto.
  { intros t x. unfold wiener_sde. rewrite (arg_eval _ _ _ _ CM), (arg_eval _ _ _ _ CS). reflexivity. }
  exists s', xx. split; [exact E|]. split; [exact LL|]. intros i ti Ni. destruct (H i ti Ni) as (y & Ey & HY). exists y. split; [exact Ey|].
  intros ix P HI HP HD m s BP. destruct (HY ix P HI HP HD BP HN) as (v & EV & H1 & H2). rewrite EV. unfold n, l. rewrite app_length. split; auto.
Qed.

(** two runs with different steps *)
Theorem C79_steps (Wd1 I1 Wd2 I2 : Type) (fexp flog : float64 -> float64) vshape paths dw1 (Adm1 : Wd1 -> Prop) dw2 (Adm2 : Wd2 -> Prop) W delta gi1 gi2
    (x0 mu sigma : arr float64) args i0 pace1 pace2 fuel1 fuel2 wd1 wd2 (inf1 : I1) (inf2 : I2) (timeline : list float64) p0 t0 :
  let NV := Num_float64 fexp flog in
  let w := (vshape ++ [paths])%list in let l1 := (timeline ++ pace1 timeline)%list in let l2 := (timeline ++ pace2 timeline)%list in
  near_source w l1 dw1 Adm1 W delta -> Adm1 wd1 -> near_source w l2 dw2 Adm2 W delta -> Adm2 wd2 ->
  const_float_arg args "mu" mu -> const_float_arg args "sigma" sigma ->
  can (shp x0) w = true -> can (shp mu) w = true -> can (shp sigma) w = true ->
  valid_timeline timeline -> start_index (length timeline) i0 p0 -> nth_error timeline p0 = Some t0 ->
  (length l1 <= fuel1)%nat -> (length l2 <= fuel2)%nat -> INR (length l1) * uu <= /2 -> INR (length l2) * uu <= /2 ->
  exists s1 xx1 s2 xx2,
    sde_call f_sub (wiener_process (I := I1) dw1 gi1 vshape paths x0 args) i0 pace1 fuel1 (wd1, inf1) [length timeline] timeline = Ok (s1, xx1) /\
    sde_call f_sub (wiener_process (I := I2) dw2 gi2 vshape paths x0 args) i0 pace2 fuel2 (wd2, inf2) [length timeline] timeline = Ok (s2, xx2) /\
    forall i, (i < length timeline)%nat -> exists y1 y2, nth_error xx1 i = Some (Some y1) /\ nth_error xx2 i = Some (Some y2) /\
      forall ix P, inb w ix -> 0 <= P -> 0 <= delta ix ->
        let m := B2R (bget mu ix) in let s := B2R (bget sigma ix) in
        bounded_path (l1 ++ l2) (fun t => W t ix) (B2R (bget x0 ix)) m s (B2R t0) P ->
        is_finite (y1 ix) = true -> is_finite (y2 ix) = true ->
        Rabs (B2R (y1 ix) - B2R (y2 ix)) <= 2 * INR (length (l1 ++ l2)) * (8 * uu * P + 2 * (Rabs s * delta ix) + 8 * ((1 + Rabs m) * eta)).
Proof.
  intros NV w l1 l2 HW1 AD1 HW2 AD2 CM CS CX CMu CSi V0 SI N0 HF1 HF2 HN1 HN2.
  destruct (C79_wiener Wd1 I1 fexp flog vshape paths dw1 Adm1 W delta gi1 x0 mu sigma args i0 pace1 fuel1 wd1 inf1 timeline p0 t0) as (s1 & xx1 & E1 & _ & H1); auto.
  destruct (C79_wiener Wd2 I2 fexp flog vshape paths dw2 Adm2 W delta gi2 x0 mu sigma args i0 pace2 fuel2 wd2 inf2 timeline p0 t0) as (s2 & xx2 & E2 & _ & H2); auto.
  exists s1, xx1, s2, xx2. split; [exact E1|]. split; [exact E2|]. intros i Hi.
  destruct (nth_error timeline i) as [ti|] eqn:Ei; [|apply nth_error_None in Ei; lia].
  destruct (H1 i ti Ei) as (y1 & Y1 & B1). destruct (H2 i ti Ei) as (y2 & Y2 & B2). exists y1, y2. split; [exact Y1|]. split; [exact Y2|].
  intros ix P HI HP HD m s BP F1 F2.
  destruct (B1 ix P HI HP HD) as [C1 _]. { intros a b Ia Ib. apply BP; apply in_or_app; auto. }
  destruct (B2 ix P HI HP HD) as [C2 _]. { intros a b Ia Ib. apply BP; apply in_or_app; auto. }
  specialize (C1 F1). specialize (C2 F2). fold m s in C1, C2. fold l1 in C1. fold l2 in C2.
  rewrite app_length, plus_INR. set (c := 8 * uu * P + 2 * (Rabs s * delta ix) + 8 * ((1 + Rabs m) * eta)) in *.
  set (z := B2R (bget x0 ix) + m * (B2R ti - B2R t0) + s * (W (B2R ti) ix - W (B2R t0) ix)) in *.
  replace (B2R (y1 ix) - B2R (y2 ix)) with ((B2R (y1 ix) - z) + - (B2R (y2 ix) - z)) by ring.
  eapply Rle_trans; [apply Rabs_triang|]. rewrite Rabs_Ropp. lra.
Qed.

(** *** lognorm_process: the relative error, if exp is accurate *)
Theorem C79_lognorm (Wd I : Type) (fexp flog : float64 -> float64) r vshape paths dw (Adm : Wd -> Prop) W delta gi
    (x0 mu sigma : arr float64) args i0 pace_fn fuel wd (inf : I) (timeline : list float64) p0 t0 :
  let NV := Num_float64 fexp flog in
  let w := (vshape ++ [paths])%list in let l := (timeline ++ pace_fn timeline)%list in let n := length l in
  accurate_exp fexp r -> 0 <= r -> near_source w l dw Adm W delta -> finite_source w dw Adm -> Adm wd ->
  const_float_arg args "mu" mu -> const_float_arg args "sigma" sigma ->
  can (shp x0) w = true -> can (shp mu) w = true -> can (shp sigma) w = true ->
  valid_timeline timeline -> start_index (length timeline) i0 p0 -> nth_error timeline p0 = Some t0 ->
  (n <= fuel)%nat -> INR n * uu <= /2 ->
  exists s' xx,
    sde_call f_sub (lognorm_process (I := I) dw gi vshape paths x0 args) i0 pace_fn fuel (wd, inf) [length timeline] timeline = Ok (s', xx) /\
    length xx = length timeline /\
    forall i ti, nth_error timeline i = Some ti -> exists y, nth_error xx i = Some (Some y) /\
      forall ix P, inb w ix -> 0 <= delta ix -> 0 < B2R (bget x0 ix) ->
        let m := B2R (bget mu ix) in let s := B2R (bget sigma ix) in
        (* as computed *)
        let l0 := flog (bget x0 ix) in let d := f_sub (bget mu ix) (f_div (f_mul (bget sigma ix) (bget sigma ix)) (f_int 2)) in
        let e := rounding_bound n (B2R d) s P (delta ix) in
        bounded_path l (fun t => W t ix) (B2R l0) (B2R d) s (B2R t0) P -> 0 <= P <= 600 ->
        in_range l l0 d (bget sigma ix) P (delta ix) -> e <= 100 ->
        (* as intended *)
        let z := B2R (bget x0 ix) * exp ((m - s * s / 2) * (B2R ti - B2R t0) + s * (W (B2R ti) ix - W (B2R t0) ix)) in
        let e' := e + Rabs (B2R l0 - ln (B2R (bget x0 ix))) + (4 * uu * (Rabs m + s * s) + 4 * eta) * Rabs (B2R ti - B2R t0) in
        is_finite (y ix) = true /\ Rabs (B2R (y ix) - z) <= ((1 + r) * exp e' - 1) * z.
Proof.
  intros NV w l n AE R0 HW FS AD CM CS CX CMu CSi V0 SI N0 HF HN. unfold n, l in HF, HN. rewrite app_length in HF, HN.
  destruct (log_drift_float fexp flog w mu sigma CMu CSi) as (dd & ED & CD & HD).
  destruct (const_float (I := I) fexp flog vshape paths timeline (pace_fn timeline) dw Adm W delta HW (@lognorm_sde float64 float64 (Num_float64 fexp flog)) true gi x0 dd sigma args CX CD CSi) with (i0 := i0) (pace_fn := pace_fn) (fuel := fuel) (wd := wd) (inf := inf) (p0 := p0) (t0 := t0)
    as (s' & xx & E & LL & H); auto.
  { intros t x. unfold lognorm_sde. rewrite (arg_eval _ _ _ _ CM), (arg_eval _ _ _ _ CS). cbn [rbind]. change (peval t (PConst mu)) with mu. change (peval t (PConst sigma)) with sigma. rewrite ED. reflexivity. }
  exists s', xx. split; [exact E|]. split; [exact LL|]. intros i ti Ni. destruct (H i ti Ni) as (y & Ey & HY). exists y. split; [exact Ey|].
  intros ix P HI HDl X0 m s l0 d e BP [HP HP6] IR HE z e'.
  assert (Ed : bget dd ix = d) by (rewrite HD; reflexivity).
  assert (El : first_value flog true x0 ix = l0) by reflexivity.
  specialize (HY ix P HI HP HDl). rewrite Ed, El in HY. destruct (HY BP HN) as (v & EV & H1 & H2). rewrite EV.
  specialize (H2 FS IR). specialize (H1 H2).
  assert (Ee : e = rounding_bound (length timeline + length (pace_fn timeline)) (B2R d) s P (delta ix)) by (unfold e, n, l; rewrite app_length; reflexivity).
  fold s in H1. rewrite <- Ee in H1.
  set (p := wiener_path (fun t => W t ix) (B2R l0) (B2R d) s (B2R t0) (B2R ti)) in H1.
  assert (Hp : Rabs p <= P). { destruct (BP ti ti) as (_ & _ & B); [apply in_or_app; left; eapply nth_error_In; exact Ni ..|exact B]. }
  destruct (AE v H2) as [F A].
  { replace (B2R v) with (p + (B2R v - p)) by ring. eapply Rle_trans; [apply Rabs_triang|]. lra. }
  split; [exact F|].
  set (q := ln (B2R (bget x0 ix)) + ((m - s * s / 2) * (B2R ti - B2R t0) + s * (W (B2R ti) ix - W (B2R t0) ix))).
  assert (Ez : z = exp q) by (unfold z, q; rewrite (exp_plus (ln (B2R (bget x0 ix)))), (exp_ln _ X0); reflexivity).
  rewrite Ez. apply exp_error with (v := B2R v); auto.
  assert (Fd : is_finite d = true) by exact (proj1 (proj2 IR)).
  pose proof (f_drift_error _ _ Fd) as DE. fold m s in DE. change (f_drift (bget mu ix) (bget sigma ix)) with d in DE.
  replace (B2R v - q) with ((B2R v - p) + (B2R l0 - ln (B2R (bget x0 ix))) + (B2R d - (m - s * s / 2)) * (B2R ti - B2R t0)) by (unfold p, q, wiener_path; ring).
  eapply Rle_trans; [apply Rabs_triang|]. unfold e'. apply Rplus_le_compat.
  - eapply Rle_trans; [apply Rabs_triang|]. lra.
  - rewrite Rabs_mult. apply Rmult_le_compat_r; [apply Rabs_pos|exact DE].
Qed.

(** *** Coefficients of a CIR process: with finite values and parameters, the
    square root is never NaN, whatever the sign of the value; coefficients are correctly rounded; a NaN value is kept *)
Theorem C79_cir (fexp flog : float64 -> float64) (t : float64) (x theta k xi : arr float64) args v :
  let NV := Num_float64 fexp flog in
  const_float_arg args "theta" theta -> const_float_arg args "k" k -> const_float_arg args "xi" xi ->
  cir_sde t x (map (fun '(n, z) => (n, peval t z)) args) = Ok v ->
  exists d s, v = RDict [("dt"%string, d); ("dw"%string, s)] /\ forall ix,
    let X := Rmax (B2R (bget x ix)) 0 in let K := B2R (bget k ix) in let TH := B2R (bget theta ix) in let XI := B2R (bget xi ix) in
    (is_finite (bget x ix) = true -> is_finite (bget xi ix) = true ->
      is_nan (bget s ix) = false /\
      (is_finite (bget s ix) = true -> B2R (bget s ix) = nearest (XI * nearest (sqrt X)) /\
         Rabs (B2R (bget s ix) - XI * sqrt X) <= 3 * uu * (Rabs XI * sqrt X) + 2 * (Rabs XI * eta) + eta) /\
      (B2R (bget x ix) <= 0 -> B2R (bget s ix) = 0)) /\
    (is_finite (bget x ix) = true -> is_finite (bget d ix) = true -> B2R (bget d ix) = nearest (K * nearest (TH - X))) /\
    (is_nan (bget x ix) = true -> is_nan (bget s ix) = true /\ is_nan (bget d ix) = true).
Proof.
  intros NV CT CK CX E. destruct (cir_sde_inv args t x v E) as (th & k' & xi' & d & s & L1 & L2 & L3 & -> & H). rewrite CT in L1. rewrite CK in L2. rewrite CX in L3.
  injection L1 as <-. injection L2 as <-. injection L3 as <-. cbn [peval] in H. exists d, s. split; [reflexivity|]. intros ix X K TH XI. destruct (H ix) as [Hd Hs]. rewrite Hd, Hs. clear Hd Hs.
  change (@nmul float64 NV) with f_mul. change (@nsub float64 NV) with f_sub. change (@nmax float64 NV) with f_max. change (@nzero float64 NV) with f_zero. change (@nsqrt float64 NV) with (@Bsqrt 53 1024 prec53 emax1024 mode_NE).
  split; [|split].
  - intros Fx Fxi. destruct (sqrt_plus _ Fx) as [Fs Es]. split; [apply mul_nnan; auto|].
    assert (EQ : is_finite (f_mul (bget xi ix) (Bsqrt mode_NE (f_max (bget x ix) f_zero))) = true -> B2R (f_mul (bget xi ix) (Bsqrt mode_NE (f_max (bget x ix) f_zero))) = nearest (XI * nearest (sqrt X))).
    { intro F. destruct (mul_fin _ _ F) as (_ & _ & R). rewrite R, Es. reflexivity. }
    split.
    + intro F. split; [exact (EQ F)|]. rewrite (EQ F). apply sqrt_error.
    + intro N. assert (ZR : X = 0) by (unfold X; apply Rmax_right; exact N).
      destruct (is_finite (f_mul (bget xi ix) (Bsqrt mode_NE (f_max (bget x ix) f_zero)))) eqn:F.
      * rewrite (EQ eq_refl), ZR, sqrt_0. change nearest with rnd. rewrite rnd_0, Rmult_0_r. apply rnd_0.
      * destruct (f_mul (bget xi ix) (Bsqrt mode_NE (f_max (bget x ix) f_zero))); try discriminate F; reflexivity.
  - intros Fx F. destruct (mul_fin _ _ F) as (_ & F' & R). destruct (sub_fin _ _ F') as (_ & _ & R'). rewrite R, R'. destruct (max_fin (bget x ix) f_zero Fx eq_refl) as [_ ->]. reflexivity.
  - intro N. assert (M : is_nan (f_max (bget x ix) f_zero) = true) by (apply max_nan; auto). split; [apply mul_nan_r, sqrt_nan, M|apply mul_nan_r, sub_nan_r, M].
Qed.
(** sqrt(2)*0.5 = 0.7071067811865476, at 2; zero at -0.1, and at -0.0 *)
Definition ex_cir (x : float64) : list SpecFloat.spec_float :=
  let NV := Num_float64 (fun x => x) (fun x => x) in
  match cir_sde (f_int 0) (ascalar x) [("theta"%string, ascalar (f_int 1)); ("k"%string, ascalar (f_int 3)); ("xi"%string, ascalar (f_div (f_int 1) (f_int 2)))] with
  | Ok (RDict l) => map (fun '(_, a) => B2SF (bget a [])) l
  | _ => []
  end.
Example C79_ex_cir : map ex_cir [f_int 2; f_div (f_int (-1)) (f_int 10); B754_nan] =
  [[B2SF (f_int (-3)); SpecFloat.S754_finite false 6369051672525773 (-53)]; [B2SF (f_int 3); SpecFloat.S754_zero false]; [SpecFloat.S754_nan; SpecFloat.S754_nan]].
Proof. vm_compute. reflexivity. Qed.

(** *** Runs with different steps, with the same source, do not have the same values: with sigma = 0, mu = 0.1, from
    0 to 10, at once, and with unit steps *)
Definition ex_zero (u : unit) (t dt : float64) : res (unit * arr float64) := Ok (u, ascalar f_zero).
Definition ex_id (x : float64) : float64 := x.
Definition ex_args : dict (param float64 float64) := [("mu"%string, PConst (ascalar (f_div (f_int 1) (f_int 10)))); ("sigma"%string, PConst (ascalar f_zero))].
Definition ex_run (dw : unit -> float64 -> float64 -> res (unit * arr float64)) args (x0 : float64) (steps : list float64) (tt_ : list float64) : list SpecFloat.spec_float :=
  let NV := Num_float64 ex_id ex_id in
  match sde_call f_sub (wiener_process (I := unit) dw false [] 1 (ascalar x0) args) 0 (fun _ => steps) 100 (tt, tt) [length tt_] tt_ with
  | Ok (_, xx) => map (fun o : option (buf float64) => match o with Some y => B2SF (y [0%nat]) | None => SpecFloat.S754_nan end) xx
  | Err _ => []
  end.
(** 1.0, and 0.9999999999999999 *)
Example C79_ex_at_once : ex_run ex_zero ex_args f_zero [] [f_int 0; f_int 10] =
  [SpecFloat.S754_zero false; SpecFloat.S754_finite false 4503599627370496 (-52)].
Proof. vm_compute. reflexivity. Qed.
Example C79_ex_steps : ex_run ex_zero ex_args f_zero (map (fun k => f_int (Z.of_nat k)) (seq 1 9)) [f_int 0; f_int 10] =
  [SpecFloat.S754_zero false; SpecFloat.S754_finite false 9007199254740991 (-53)].
Proof. vm_compute. reflexivity. Qed.

Theorem C79_exact_refuted : ~ (forall steps1 steps2 : list float64,
  ex_run ex_zero ex_args f_zero steps1 [f_int 0; f_int 10] = ex_run ex_zero ex_args f_zero steps2 [f_int 0; f_int 10]).
Proof.
  intro H. specialize (H [] (map (fun k => f_int (Z.of_nat k)) (seq 1 9))). rewrite C79_ex_at_once, C79_ex_steps in H. discriminate H.
Qed.

(** *** a source for W(t) = t: its increments are rounded *)
Definition ex_dt (u : unit) (t dt : float64) : res (unit * arr float64) := Ok (u, ascalar dt).
Example C79_ex_source l : (forall s s', In s l -> In s' l -> Rabs (B2R s' - B2R s) <= 8) ->
  near_source [1%nat] l ex_dt (fun _ => True) (fun t _ => t) (fun _ => uu * 8 + eta) /\ finite_source [1%nat] ex_dt (fun _ => True).
Proof.
  intro H. split.
  - intros u t dt _. exists u, (ascalar dt). split; auto. split; auto. split; auto.
    intros t' s s' ix -> Is Is' E E' _ F. rewrite E, E'. destruct (sub_fin _ _ F) as (_ & _ & R). change (bget (ascalar (f_sub t' t)) ix) with (f_sub t' t).
    rewrite R. eapply Rle_trans; [apply rnd_error|]. apply Rplus_le_compat_r. apply Rmult_le_compat_l; [left; apply uu_pos|].
    rewrite <- E, <- E'. apply H; auto.
  - intros u t dt u' z ix _ _ F [= <- <-] _. exact F.
Qed.
(** x0 = 1, mu = 0.1, sigma = 0.7: 1.4, and 1.7999999999999998, as Python gives *)
Definition ex_args2 : dict (param float64 float64) :=
  [("mu"%string, PConst (ascalar (f_div (f_int 1) (f_int 10)))); ("sigma"%string, PConst (ascalar (f_div (f_int 7) (f_int 10))))].
Example C79_ex_run : ex_run ex_dt ex_args2 (f_int 1) [] [f_int 0; f_div (f_int 1) (f_int 2); f_int 1] =
  map B2SF [f_int 1; f_div (f_int 14) (f_int 10)] ++ [SpecFloat.S754_finite false 8106479329266892 (-52)].
Proof. vm_compute. reflexivity. Qed.
(** overflow: 1 + 2^1023 + 2^1023 is not finite *)
Definition ex_args3 : dict (param float64 float64) := [("mu"%string, PConst (ascalar (f_int 1))); ("sigma"%string, PConst (ascalar (f_int 1)))].
Example C79_ex_overflow : ex_run ex_dt ex_args3 (f_int 1) [] [f_int 0; f_int (2 ^ 1023)] = [B2SF (f_int 1); SpecFloat.S754_infinity false].
Proof. vm_compute. reflexivity. Qed.

Print Assumptions C79_wiener.
Print Assumptions C79_steps.
Print Assumptions C79_lognorm.
Print Assumptions C79_exact_refuted.
Print Assumptions C79_cir.
