(** Simulations of Ornstein-Uhlenbeck processes with double precision numbers: C84. *)
From Coq Require Import String List Arith Bool ZArith Reals Lra Lia.
From Flocq Require Import IEEE754.BinarySingleNaN Core.
From Verif Require Import Base BaseOrd BaseNum BaseArr BaseFloat M_float M_paths S_paths S_run L_ord L_paths8
  M_sde S_sde L_sde L_sde2 L_sde3 M_presets S_presets L_presets L_euler S_float S_float2 L_float L_float2 L_float5.
From Verif Require L_float3 P_float.
Import ListNotations.
Local Open Scope R_scope.

Lemma stable_pos n theta k sigma P tau delta : 0 <= P -> 0 <= tau -> 0 <= delta ->
  0 <= 20 * uu * P + 2 * (Rabs sigma * delta) + (20 + 2 * tau + 16 * (Rabs k * (Rabs theta + P))) * eta /\
  stable_bound n theta k sigma P tau delta = 2 * INR n * (20 * uu * P + 2 * (Rabs sigma * delta) + (20 + 2 * tau + 16 * (Rabs k * (Rabs theta + P))) * eta).
Proof.
  intros HP HT HD. pose proof uu_pos. pose proof eta_pos. split; [|reflexivity].
  assert (0 <= uu * P) by (apply Rmult_le_pos; lra). assert (0 <= Rabs sigma * delta) by (apply Rmult_le_pos; [apply Rabs_pos|auto]).
  assert (0 <= Rabs k * (Rabs theta + P)) by (apply Rmult_le_pos; [apply Rabs_pos|pose proof (Rabs_pos theta); lra]).
  assert (0 <= (20 + 2 * tau + 16 * (Rabs k * (Rabs theta + P))) * eta) by (apply Rmult_le_pos; lra). lra.
Qed.

(** Values that are finite, as they are if data are finite and not too large, differ from those of the Euler scheme in exact arithmetic, with the same noise, by an error
    proportional to the number of steps, if steps are stable: 0 <= k dt <= 2. *)
Theorem C84_oruh (Wd I : Type) (fexp flog : float64 -> float64) vshape paths dw (Adm : Wd -> Prop) W delta gi
    (x0 theta k sigma : arr float64) args i0 pace_fn fuel wd (inf : I) (timeline : list float64) p0 t0 :
  let NV := Num_float64 fexp flog in
  let w := (vshape ++ [paths])%list in let pc := pace_fn timeline in let l := (timeline ++ pc)%list in let n := length l in
  near_source w l dw Adm W delta -> Adm wd ->
  const_float_arg args "theta" theta -> const_float_arg args "k" k -> const_float_arg args "sigma" sigma ->
  can (shp x0) w = true -> can (shp theta) w = true -> can (shp k) w = true -> can (shp sigma) w = true ->
  valid_timeline timeline -> (forall s, In s l -> is_finite s = true) -> start_index (length timeline) i0 p0 -> nth_error timeline p0 = Some t0 ->
  (n <= fuel)%nat -> 128 * (INR n * uu) <= /2 ->
  exists s' xx,
    sde_call f_sub (ou_process (I := I) dw gi vshape paths x0 args) i0 pace_fn fuel (wd, inf) [length timeline] timeline = Ok (s', xx) /\
    length xx = length timeline /\
    forall i ti, nth_error timeline i = Some ti -> exists y, nth_error xx i = Some (Some y) /\
      forall ix P tau Y, inb w ix -> 0 <= P -> 0 <= tau -> 0 <= delta ix ->
        let th := B2R (bget theta ix) in let kk := B2R (bget k ix) in let sg := B2R (bget sigma ix) in
        euler_path timeline pc (fun t => W t ix) (B2R (bget x0 ix)) th kk sg (B2R t0) Y ->
        stable_path timeline pc (fun t => W t ix) th kk sg (B2R t0) Y P tau ->
        (is_finite (y ix) = true -> Rabs (B2R (y ix) - Y (B2R ti)) <= stable_bound n th kk sg P tau (delta ix)) /\
        (finite_source w dw Adm -> stable_range (bget x0 ix) (bget theta ix) (bget k ix) (bget sigma ix) P tau (delta ix) -> is_finite (y ix) = true).
Proof.
  intros NV w pc l n HW AD CT CK CS CX CTh CKa CSi V0 FA SI N0 HF HN. unfold n, l in HF. rewrite app_length in HF.
  assert (AG : forall t x, exists a, ou_sde t (mkArr w x) (map (fun '(k, z) => (k, peval t z)) args) = Ok (RDict [("dt"%string, a); ("dw"%string, sigma)]) /\ can (shp a) w = true /\
     forall ix, inb w ix -> bget a ix = f_mul (bget k ix) (f_sub (bget theta ix) (x ix))).
  { intros t x. unfold ou_sde. rewrite (arg_eval _ _ _ _ CT), (arg_eval _ _ _ _ CK), (arg_eval _ _ _ _ CS). cbn [rbind peval]. unfold revert.
    destruct (aop_ok nsub theta (mkArr w x) w CTh (can_refl w)) as (d & E1 & C1). rewrite E1. cbn [rbind].
    destruct (aop_ok nmul k d w CKa C1) as (a & E2 & C2). rewrite E2. cbn [rbind]. exists a. split; [reflexivity|]. split; [exact C2|].
    intros ix HI. rewrite (aop_get _ _ _ _ ix E2), (aop_get _ _ _ _ ix E1), (bget_self (mkArr w x)) by auto. reflexivity. }
  set (ig := ou_process (I := I) dw gi vshape paths x0 args).
  assert (TI : total_integ ig Adm).
  { apply dw_total; auto.
    - intros t x. destruct (AG t x) as (a & E & C & _). exists a, sigma. auto.
    - intros u t dt Hu. destruct (HW u t dt Hu) as (u' & z & E & A' & C & _). eauto. }
  destruct (sde_call_total f_sub ig Adm TI i0 pace_fn fuel (wd, inf) timeline p0 AD V0 SI HF) as ([wd' inf'] & xx & E).
  exists (wd', inf'), xx. split; [exact E|].
  pose proof (sde_call_run f_sub ig i0 pace_fn fuel wd inf timeline p0 t0 wd' inf' xx V0 SI N0 HF E) as RN.
  split. { destruct RN as (? & ? & ? & ? & ? & _ & _ & _ & _ & _ & _ & LL & _). auto. }
  assert (I0 : In t0 timeline) by (eapply nth_error_In; eauto).
  apply (run_link _ _ (fun t t' => (cnt l t0 t < cnt l t0 t')%nat /\ InT t l /\ InT t' l /\ next_point timeline pc (B2R t0) (B2R t) (B2R t'))) in RN;
    [|intros rv g; apply grid_next; auto].
  set (c := fun ix P tau => 20 * uu * P + 2 * (Rabs (B2R (bget sigma ix)) * delta ix) + (20 + 2 * tau + 16 * (Rabs (B2R (bget k ix)) * (Rabs (B2R (bget theta ix)) + P))) * eta).
  set (hyp := fun ix P tau Y => inb w ix /\ 0 <= P /\ 0 <= tau /\ 0 <= delta ix /\
     euler_path timeline pc (fun t => W t ix) (B2R (bget x0 ix)) (B2R (bget theta ix)) (B2R (bget k ix)) (B2R (bget sigma ix)) (B2R t0) Y /\
     stable_path timeline pc (fun t => W t ix) (B2R (bget theta ix)) (B2R (bget k ix)) (B2R (bget sigma ix)) (B2R t0) Y P tau).
  assert (C0 : forall ix P tau Y, hyp ix P tau Y -> 0 <= c ix P tau).
  { intros ix P tau Y (_ & HP & HT & HD & _). apply (stable_pos 0 (B2R (bget theta ix)) (B2R (bget k ix)) (B2R (bget sigma ix)) P tau (delta ix) HP HT HD). }
  set (PP := fun (u : Wd) (t : float64) (x : buf float64) => Adm u /\ forall ix P tau Y, hyp ix P tau Y -> (is_finite (x ix) = true -> Rabs (B2R (x ix) - Y (B2R t)) <= errs (c ix P tau) (cnt l t0 t)) /\
     (finite_source w dw Adm -> stable_range (bget x0 ix) (bget theta ix) (bget k ix) (bget sigma ix) P tau (delta ix) -> is_finite (x ix) = true)).
  destruct (run_inv ig (fun u t t' x u' x' => next_step f_sub ig u t t' x u' x' /\ ((cnt l t0 t < cnt l t0 t')%nat /\ InT t l /\ InT t' l /\ next_point timeline pc (B2R t0) (B2R t) (B2R t'))) PP Adm timeline pc i0 p0 t0 wd wd' xx) as [OUT _]; auto.
  - intros u t x Hu Et EI. simpl in EI. unfold sde_init in EI. fold w in EI. rewrite assign_can in EI by auto. injection EI as <-.
    split; auto. intros ix P tau Y HY. split.
    2:{ intros _ (F & _). unfold logi. cbn [ig_log ig ou_process mk_sde]. exact F. }
    intros _. assert (EB : B2R t = B2R t0). { apply Beqb_spec in Et. unfold f_val in Et. tauto. }
    rewrite EB. destruct (HY) as (_ & _ & _ & _ & (Y0 & _) & _). rewrite Y0. unfold logi. cbn [ig_log ig ou_process mk_sde]. replace (B2R (bget x0 ix) - B2R (bget x0 ix)) with 0 by ring. rewrite Rabs_R0. apply errs_pos. eapply C0; eauto.
  - intros u t x t' u' x' (Hu & HP) [ST (LT & I1 & I2 & NX)]. unfold next_step in ST. destruct (AG t x) as (a & EA & CA & HA).
    destruct (dw_next_ok f_sub ig dw a sigma u t t' x u' x' eq_refl eq_refl) as (z & EZ & HN'); auto.
    { cbn [ig_A ig ou_process mk_sde]. unfold sde_A. cbn [ig_w ig ou_process mk_sde]. fold w. rewrite EA. cbn [rbind]. apply dw_check. }
    destruct (HW u t (f_sub t' t) Hu) as (u1 & z1 & EZ1 & Hu1 & _ & HZ). rewrite EZ1 in EZ. injection EZ as <- <-.
    split; auto. intros ix P tau Y HY. pose proof HY as (HI & P0 & T0 & HD & (_ & EU) & (_ & SB)).
    rewrite (HN' ix HI). rewrite (HA ix HI). cbn [nadd nmul nzero NV Num_float64].
    destruct (InT_B2R _ _ I1) as (s & S1 & S2). destruct (InT_B2R _ _ I2) as (s' & S3 & S4).
    split.
    2:{ intros FS SR. pose proof SR as (G1 & G2 & G3 & G4 & G5 & G6 & G7 & G8 & G9). destruct (HP ix P tau Y HY) as [HP1 HP2]. specialize (HP2 FS SR). specialize (HP1 HP2).
      destruct (SB _ _ NX) as (B1 & B2 & B3 & B4 & B5 & B6). rewrite (EU _ _ NX) in B6.
      assert (Ft : is_finite t = true) by (eapply InT_finite; [exact I1|exact FA]). assert (Ft' : is_finite t' = true) by (eapply InT_finite; [exact I2|exact FA]).
      apply (ou_step_finite (x ix) (bget k ix) (bget theta ix) (bget sigma ix) (bget z1 ix) t t' (Y (B2R t)) (W (B2R t') ix - W (B2R t) ix) P (delta ix) tau (errs (c ix P tau) (cnt l t0 t))); auto.
      - intro F. exact (FS u t (f_sub t' t) u1 z1 ix Hu Ft F EZ1 HI).
      - eapply Rle_trans; [exact G7|]. apply bpow_le. lia.
      - eapply Rle_trans; [apply (errs_mono _ _ n); [eapply C0; eauto|unfold n; apply cnt_le]|]. eapply Rle_trans; [apply errs_bound; [eapply C0; eauto|exact HN]|].
        exact (stable_le n (B2R (bget theta ix)) (B2R (bget k ix)) (B2R (bget sigma ix)) P tau (delta ix) (conj P0 G8) (conj T0 G9) HD G7 G6 G5 HN).
      - intro F. specialize (HZ t' s s' ix eq_refl S1 S3 S2 S4 HI F). rewrite S2, S4 in HZ. exact HZ. }
    intro FI.
    assert (FX : is_finite (x ix) = true /\ is_finite (bget z1 ix) = true).
    { destruct (add_fin _ _ FI) as (F1 & F2 & _). destruct (add_fin _ _ F2) as (_ & F3 & _). destruct (mul_fin _ _ F3) as (_ & F4 & _). auto. }
    destruct (HP ix P tau Y HY) as [HP' _]. clear HP. rename HP' into HP. specialize (HP (proj1 FX)).
    specialize (HZ t' s s' ix eq_refl S1 S3 S2 S4 HI (proj2 FX)). rewrite S2, S4 in HZ.
    destruct (SB _ _ NX) as (B1 & B2 & B3 & B4 & B5 & B6). rewrite (EU _ _ NX) in B6 |- *.
    eapply Rle_trans; [apply (ou_step_error (x ix) (bget k ix) (bget theta ix) (bget sigma ix) (bget z1 ix) t t' (Y (B2R t)) (W (B2R t') ix - W (B2R t) ix) P (delta ix) tau _ FI P0 HD HP B1 B2 B3 B4 B5 B6 HZ)|].
    apply errs_next; auto. eapply C0; eauto.
  - intros u t x [Hu _]; auto.
  - intros i ti Ni. destruct (OUT i ti Ni) as (t & x & u & y & Et & (_ & HP) & EL & EX).
    exists (fin ig y). split; auto. intros ix P tau Y HI P0 T0 HD th kk sg EU SB. assert (HY : hyp ix P tau Y) by exact (conj HI (conj P0 (conj T0 (conj HD (conj EU SB))))).
    assert (EV : fin ig y ix = x ix).
    { simpl in EL. unfold sde_let in EL. rewrite assign_can in EL by apply can_refl. injection EL as <-. unfold fin. cbn [ig_log ig ou_process mk_sde]. fold w. rewrite bget_self by auto. reflexivity. }
    rewrite EV. destruct (HP ix P tau Y HY) as [HP1 HP2]. split; [|exact HP2]. intro FI. clear HP HP2. rename HP1 into HP. specialize (HP FI). assert (EB : B2R t = B2R ti). { apply Beqb_spec in Et. unfold f_val in Et. symmetry. tauto. }
    rewrite EB in HP. eapply Rle_trans; [exact HP|]. eapply Rle_trans; [apply (errs_mono _ _ n)|].
    + eapply C0; eauto.
    + unfold n. apply cnt_le.
    + destruct (stable_pos n th kk sg P tau (delta ix) P0 T0 HD) as [_ ->]. apply errs_bound; [eapply C0; eauto|exact HN].
Qed.

(** *** theta = 2, k = 1, sigma = 1/10, x0 = 0, W(t) = t, from 0 to 1 with two steps *)
Definition ex_dt (u : unit) (t dt : float64) : res (unit * arr float64) := Ok (u, ascalar dt).
Definition ex_half : float64 := f_div (f_int 1) (f_int 2).
Definition ex_tl : list float64 := [f_int 0; f_int 1].
Definition ex_args : dict (param float64 float64) :=
  [("theta"%string, PConst (ascalar (f_int 2))); ("k"%string, PConst (ascalar (f_int 1))); ("sigma"%string, PConst (ascalar (f_div (f_int 1) (f_int 10))))].
Definition ex_run : list SpecFloat.spec_float :=
  let NV := Num_float64 (fun x => x) (fun x => x) in
  match sde_call f_sub (ou_process (I := unit) ex_dt false [] 1 (ascalar f_zero) ex_args) 0 (fun _ => [ex_half]) 100 (tt, tt) [2%nat] ex_tl with
  | Ok (_, xx) => map (fun o : option (buf float64) => match o with Some y => B2SF (y [0%nat]) | None => SpecFloat.S754_nan end) xx
  | Err _ => []
  end.
(** 0.0, and 1.5750000000000002, as Python gives, instead of 1.575 *)
Example C84_ex_run : ex_run = [SpecFloat.S754_zero false; SpecFloat.S754_finite false 7093169413108532 (-52)] /\
  B2SF (f_div (f_int 1575) (f_int 1000)) = SpecFloat.S754_finite false 7093169413108531 (-52).
Proof. split; vm_compute; reflexivity. Qed.
Lemma val_of (x : float64) m e : B2SF x = SpecFloat.S754_finite false m e -> B2R x = IZR (Zpos m) * bpow radix2 e.
Proof. intro E. rewrite <- SF2R_B2SF, E. reflexivity. Qed.
Lemma ex_1 : B2R (f_int 1) = 1.
Proof. rewrite (val_of (f_int 1) 4503599627370496 (-52)) by (vm_compute; reflexivity). cbn. lra. Qed.
Lemma ex_2 : B2R ex_half = /2.
Proof. rewrite (val_of ex_half 4503599627370496 (-53)) by (vm_compute; reflexivity). cbn. lra. Qed.
Lemma ex_point p : grid_point ex_tl [ex_half] p <-> p = 0 \/ p = /2 \/ p = 1.
Proof.
  unfold grid_point. split.
  - intros (q & <- & [H|[H _]]); cbn in H; [destruct H as [<- |[<- |[]]]|destruct H as [<- |[]]]; [left; reflexivity|right; right; apply ex_1|right; left; apply ex_2].
  - intros [-> |[-> | ->]]; [exists (f_int 0)|exists ex_half|exists (f_int 1)]; (split; [try reflexivity; try apply ex_1; try apply ex_2|]).
    + left. left. reflexivity.
    + right. split; [left; reflexivity|]. exists (f_int 0), (f_int 1). split; [left; reflexivity|]. split; [right; left; reflexivity|]. rewrite ex_1, ex_2. change (B2R (f_int 0)) with 0. lra.
    + left. right. left. reflexivity.
Qed.
Lemma ex_next p p' : next_point ex_tl [ex_half] 0 p p' -> (p = 0 /\ p' = /2) \/ (p = /2 /\ p' = 1).
Proof.
  intros (A & B & D & H). apply ex_point in A, B. specialize (H (/2) (proj2 (ex_point _) (or_intror (or_introl eq_refl)))). unfold Rmin, Rmax in H.
  destruct A as [-> |[-> | ->]], B as [-> |[-> | ->]]; try lra; auto. exfalso. apply H. destruct (Rle_dec 0 1); lra.
Qed.
(** the exact values of the scheme, and the bound on the error at 1 *)
Definition ex_Y (sg t : R) : R := if Rle_dec t 0 then 0 else if Rle_dec t (/2) then 1 + sg / 2 else 1 + sg / 2 + (1 - sg / 2) / 2 + sg / 2.
Example C84_ex_path sg : 0 <= sg <= 1 ->
  euler_path ex_tl [ex_half] (fun t => t) 0 2 1 sg 0 (ex_Y sg) /\ stable_path ex_tl [ex_half] (fun t => t) 2 1 sg 0 (ex_Y sg) 4 1.
Proof.
  intro S. assert (Y0 : ex_Y sg 0 = 0) by (unfold ex_Y; destruct (Rle_dec 0 0); lra).
  assert (Y1 : ex_Y sg (/2) = 1 + sg/2) by (unfold ex_Y; destruct (Rle_dec (/2) 0); [lra|]; destruct (Rle_dec (/2) (/2)); lra).
  assert (Y2 : ex_Y sg 1 = 1 + sg / 2 + (1 - sg / 2) / 2 + sg / 2) by (unfold ex_Y; destruct (Rle_dec 1 0); [lra|]; destruct (Rle_dec 1 (/2)); lra).
  split; split.
  - exact Y0.
  - intros p p' N. destruct (ex_next p p' N) as [[-> ->]|[-> ->]]; rewrite ?Y0, ?Y1, ?Y2; lra.
  - rewrite Y0, Rabs_R0. lra.
  - intros p p' N. destruct (ex_next p p' N) as [[-> ->]|[-> ->]]; rewrite ?Y0, ?Y1, ?Y2; (split; [lra|]); repeat split; apply Rabs_le; lra.
Qed.

(** the theorem, for this run: its values are finite, and at 1 the error is at most the bound *)
Lemma uu_tiny : 1024 * uu <= /2.
Proof. change 1024 with (bpow radix2 10). change (/2) with (bpow radix2 (-1)). unfold uu. rewrite <- bpow_plus. apply bpow_le. lia. Qed.
Lemma ex_0 : B2R (f_int 0) = 0. Proof. reflexivity. Qed.
Example C84_ex_bound : exists sg s' xx y,
  let NV := Num_float64 (fun x => x) (fun x => x) in
  sde_call f_sub (ou_process (I := unit) ex_dt false [] 1 (ascalar f_zero) ex_args) 0 (fun _ => [ex_half]) 100 (tt, tt) [2%nat] ex_tl = Ok (s', xx) /\
  nth_error xx 1 = Some (Some y) /\ sg = B2R (f_div (f_int 1) (f_int 10)) /\ is_finite (y [0%nat]) = true /\
  Rabs (B2R (y [0%nat]) - (3/2 + 3/4 * sg)) <= stable_bound 3 2 1 sg 4 1 (uu * 8 + eta).
Proof.
  set (sg := B2R (f_div (f_int 1) (f_int 10))).
  assert (S : 0 <= sg <= 1).
  { unfold sg. rewrite (val_of (f_div (f_int 1) (f_int 10)) 7205759403792794 (-56)) by (vm_compute; reflexivity). cbn. lra. }
  assert (T2 : B2R (f_int 2) = 2) by apply L_float3.B2R_2.
  assert (FA : forall s, In s (ex_tl ++ [ex_half]) -> is_finite s = true) by (intros s [<- |[<- |[<- |[]]]]; reflexivity).
  assert (NEAR : near_source [1%nat] (ex_tl ++ [ex_half]) ex_dt (fun _ => True) (fun t _ => t) (fun _ => uu * 8 + eta) /\ finite_source [1%nat] ex_dt (fun _ => True)).
  { apply P_float.C79_ex_source. intros s s' H H'. assert (V : forall q, In q (ex_tl ++ [ex_half]) -> 0 <= B2R q <= 1).
    { intros q [<- |[<- |[<- |[]]]]; rewrite ?ex_0, ?ex_1, ?ex_2; lra. }
    apply V in H, H'. apply Rabs_le. lra. }
  destruct (C84_oruh unit unit (fun x => x) (fun x => x) [] 1 ex_dt (fun _ => True) (fun t _ => t) (fun _ => uu * 8 + eta) false (ascalar f_zero) (ascalar (f_int 2)) (ascalar (f_int 1)) (ascalar (f_div (f_int 1) (f_int 10)))
    ex_args 0 (fun _ => [ex_half]) 100 tt tt ex_tl 0 (f_int 0)) as (s' & xx & E & _ & H); auto; try reflexivity.
  - exact (proj1 NEAR).
  - split; [discriminate|]. split; [repeat constructor|]. repeat constructor.
  - left. cbn. lia.
  - cbn. lia.
  - cbn [Datatypes.length app ex_tl]. pose proof uu_tiny. simpl INR. lra.
  - destruct (H 1%nat (f_int 1) eq_refl) as (y & Ey & Hy). exists sg, s', xx, y. split; [exact E|]. split; [exact Ey|]. split; [reflexivity|].
    pose proof uu_pos as U0. pose proof uu_small as U1. pose proof eta_pos as U2. pose proof eta_small as U3.
    destruct (Hy [0%nat] 4 1 (ex_Y sg)) as [H1 H2]; try lra.
    + repeat constructor.
    + change (bget (ascalar (f_int 2)) [0%nat]) with (f_int 2). change (bget (ascalar (f_int 1)) [0%nat]) with (f_int 1). rewrite T2, ex_1. exact (proj1 (C84_ex_path sg S)).
    + change (bget (ascalar (f_int 2)) [0%nat]) with (f_int 2). change (bget (ascalar (f_int 1)) [0%nat]) with (f_int 1). rewrite T2, ex_1. exact (proj2 (C84_ex_path sg S)).
    + assert (F : is_finite (y [0%nat]) = true).
      { apply H2; [exact (proj2 NEAR)|].
        assert (B9 : 8 <= bpow radix2 800) by (change 8 with (bpow radix2 3); apply bpow_le; lia).
        assert (B8 : bpow radix2 800 <= bpow radix2 900) by (apply bpow_le; lia). assert (B1 : 8 <= bpow radix2 100) by (change 8 with (bpow radix2 3); apply bpow_le; lia).
        change (bget (ascalar (f_int 2)) [0%nat]) with (f_int 2). change (bget (ascalar (f_int 1)) [0%nat]) with (f_int 1). change (bget (ascalar (f_div (f_int 1) (f_int 10))) [0%nat]) with (f_div (f_int 1) (f_int 10)).
        unfold stable_range. fold sg. rewrite T2, ex_1. repeat (split; [reflexivity|]). rewrite (Rabs_pos_eq 2), (Rabs_pos_eq 1), (Rabs_pos_eq sg) by lra.
        split; [lra|]. split; [lra|]. split; [|lra]. apply Rle_trans with (1 * 8); [apply Rmult_le_compat; lra|lra]. }
      split; [exact F|]. specialize (H1 F). revert H1.
      change (bget (ascalar (f_int 2)) [0%nat]) with (f_int 2). change (bget (ascalar (f_int 1)) [0%nat]) with (f_int 1). rewrite T2, ex_1. fold sg.
      replace (ex_Y sg 1) with (3/2 + 3/4 * sg); [exact (fun h => h)|]. unfold ex_Y. destruct (Rle_dec 1 0); [lra|]. destruct (Rle_dec 1 (/2)); lra.
Qed.
Print Assumptions C84_oruh.
