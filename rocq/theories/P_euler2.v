(** C68, continued: the mean and the variance of the values given by an integration, with the sources made by the class,
    are those of the process if there is no mean reversion, and converge to them for Ornstein-Uhlenbeck processes. *)
From Coq Require Import String List Arith Bool ZArith Reals Lra Lia Sorting.Sorted.
From Verif Require Import Base BaseOrd BaseNum BaseArr M_paths S_paths S_run L_ord L_paths8
  M_process M_source S_source M_sde S_sde L_sde L_sde2 L_sde3 M_presets S_presets L_presets M_integrate S_integrate
  P_source4 S_true2 M_analytical S_euler L_euler L_euler2.
Import ListNotations.
Open Scope R_scope.

Section Weak.
Context {G I Omega : Type}.
Variables (normal : list nat -> G -> res (arr R) * G) (mvnormal : arr R -> list nat -> G -> res (arr R) * G).
Hypothesis N_ok : normal_ok normal.
Variables (vshape : list nat) (paths : nat).
Let w := (vshape ++ [paths])%list.
(** the source made by the class, no correlations being given *)
Variable s : src (V := R) (G := G) (arr R).
Hypothesis HS : source_dw normal mvnormal GNone INone INone paths vshape = Ok s.
(** expected values, over random initial states of the generator *)
Variables (E : (Omega -> R) -> R) (g : Omega -> G).
Hypothesis HE : linear E.
Hypothesis H1 : E (fun _ => 1) = 1.

Lemma source_is : s = wiener_call normal mvnormal paths vshape PNone.
Proof using HS. injection HS as <-. reflexivity. Qed.

(** wiener_process: exact mean and variance at all points of the timeline, whatever the steps *)
Theorem C68_wiener_moments gi (x0 mu sigma : arr R) args pace_fn fuel (inf : I) (timeline : list R) t0 :
  const_arg args "mu" mu -> const_arg args "sigma" sigma ->
  broadcasts (shp x0) w -> broadcasts (shp mu) w -> broadcasts (shp sigma) w ->
  valid_timeline timeline -> nth_error timeline 0 = Some t0 ->
  (length timeline + length (pace_fn timeline) <= fuel)%nat ->
  white normal w (length timeline + length (pace_fn timeline)) E g ->
  let run o := sde_call Rminus (wiener_process (I := I) (at_step s) gi vshape paths x0 args) 0 pace_fn fuel (g o, inf) [length timeline] timeline in
  (forall o, exists s' xx, run o = Ok (s', xx)) /\
  forall i ti ix, nth_error timeline i = Some ti -> inb w ix ->
    let X o := value_at (run o) i ix in
    E X = wiener_mean (bget x0 ix) (bget mu ix) (bget sigma ix) (ti - t0) /\
    E (fun o => (X o - E X) * (X o - E X)) = wiener_var (bget x0 ix) (bget mu ix) (bget sigma ix) (ti - t0).
Proof using N_ok HS HE H1.
  intros CM CS BX BM BS V0 N0 HF HW run. unfold run. rewrite source_is.
  destruct (fine_exists timeline (pace_fn timeline)) as (h & FI).
  destruct (linear_moments (I := I) normal mvnormal N_ok vshape paths E g HE H1 wiener_sde false gi x0 sigma args (bget mu) (fun _ => 0)
    (proj2 (can_broadcasts _ _) BX) (wiener_drift w args mu sigma CM CS BM BS) pace_fn fuel inf timeline t0 h V0 N0 HF FI HW)
    as (RUN & gr & GP & G0 & _ & H). split; [exact RUN|].
  intros i ti ix Ni HI. destruct (H i ti ix Ni HI) as (n & Hn & Et & EM & EV). cbv zeta in EM, EV.
  rewrite mpath_const, G0, Et in EM. rewrite vpath_const, G0, Et in EV by (first [exact Hn|intros; apply GP; auto]).
  split; [exact EM|exact EV].
Qed.

(** lognorm_process: exact mean and variance of the logarithm *)
Theorem C68_lognorm_moments gi (x0 mu sigma : arr R) args pace_fn fuel (inf : I) (timeline : list R) t0 :
  const_arg args "mu" mu -> const_arg args "sigma" sigma ->
  broadcasts (shp x0) w -> broadcasts (shp mu) w -> broadcasts (shp sigma) w ->
  valid_timeline timeline -> nth_error timeline 0 = Some t0 ->
  (length timeline + length (pace_fn timeline) <= fuel)%nat ->
  white normal w (length timeline + length (pace_fn timeline)) E g ->
  let run o := sde_call Rminus (lognorm_process (I := I) (at_step s) gi vshape paths x0 args) 0 pace_fn fuel (g o, inf) [length timeline] timeline in
  (forall o, exists s' xx, run o = Ok (s', xx)) /\
  forall i ti ix, nth_error timeline i = Some ti -> inb w ix ->
    let X o := ln (value_at (run o) i ix) in
    E X = ln (bget x0 ix) + (bget mu ix - bget sigma ix * bget sigma ix / 2) * (ti - t0) /\
    E (fun o => (X o - E X) * (X o - E X)) = bget sigma ix * bget sigma ix * (ti - t0).
Proof using N_ok HS HE H1.
  intros CM CS BX BM BS V0 N0 HF HW run. unfold run. rewrite source_is.
  destruct (fine_exists timeline (pace_fn timeline)) as (h & FI).
  destruct (linear_moments (I := I) normal mvnormal N_ok vshape paths E g HE H1 lognorm_sde true gi x0 sigma args _ (fun _ => 0)
    (proj2 (can_broadcasts _ _) BX) (lognorm_drift w args mu sigma CM CS BM BS) pace_fn fuel inf timeline t0 h V0 N0 HF FI HW)
    as (RUN & gr & GP & G0 & _ & H). split; [exact RUN|].
  intros i ti ix Ni HI. destruct (H i ti ix Ni HI) as (n & Hn & Et & EM & EV). cbv zeta in EM, EV.
  rewrite mpath_const, G0, Et in EM. rewrite vpath_const, G0, Et in EV by (first [exact Hn|intros; apply GP; auto]).
  split; [exact EM|exact EV].
Qed.

(** ornstein_uhlenbeck_process: mean and variance given the grid *)
Lemma oruh_grid gi (x0 theta k sigma : arr R) args pace_fn fuel (inf : I) (timeline : list R) t0 h :
  const_arg args "theta" theta -> const_arg args "k" k -> const_arg args "sigma" sigma ->
  broadcasts (shp x0) w -> broadcasts (shp theta) w -> broadcasts (shp k) w -> broadcasts (shp sigma) w ->
  valid_timeline timeline -> nth_error timeline 0 = Some t0 ->
  (length timeline + length (pace_fn timeline) <= fuel)%nat -> fine h timeline (pace_fn timeline) ->
  white normal w (length timeline + length (pace_fn timeline)) E g ->
  let run o := sde_call Rminus (ou_process (I := I) (at_step s) gi vshape paths x0 args) 0 pace_fn fuel (g o, inf) [length timeline] timeline in
  (forall o, exists s' xx, run o = Ok (s', xx)) /\
  exists gr, (forall n, (S n < length gr)%nat -> 0 < gap gr n <= h) /\ nth 0 gr 0 = t0 /\
    (forall B, (forall t, In t timeline -> t <= B) -> forall n, (n < length gr)%nat -> t0 <= nth n gr 0 <= B) /\
  forall i ti ix, nth_error timeline i = Some ti -> inb w ix ->
    exists n, (n < length gr)%nat /\ nth n gr 0 = ti /\
      let X o := value_at (run o) i ix in
      E X = mpath gr (bget k ix * bget theta ix) (bget k ix) (bget x0 ix) n /\
      E (fun o => (X o - E X) * (X o - E X)) = vpath gr (bget k ix) (bget sigma ix) n.
Proof using N_ok HS HE H1.
  intros CT CK CS BX BT BK BS V0 N0 HF FI HW run. unfold run. rewrite source_is.
  exact (linear_moments (I := I) normal mvnormal N_ok vshape paths E g HE H1 ou_sde false gi x0 sigma args _ (bget k)
    (proj2 (can_broadcasts _ _) BX) (ou_drift w args theta k sigma CT CK CS BT BK BS) pace_fn fuel inf timeline t0 h V0 N0 HF FI HW).
Qed.
End Weak.

(** ornstein_uhlenbeck_process: for given parameters and duration the errors of mean and variance are of the order of the
    longest step, whatever the timeline, the steps, the shape of values and the number of paths *)
Theorem C68_oruh_moments (x th ka sg T : R) : ka <> 0 -> exists C, 0 <= C /\
  forall (G I Omega : Type) (normal : list nat -> G -> res (arr R) * G) mvnormal vshape paths s
    (E : (Omega -> R) -> R) (g : Omega -> G) gi (x0 theta k sigma : arr R) args pace_fn fuel (inf : I) (timeline : list R) t0 h,
  let w := (vshape ++ [paths])%list in
  normal_ok normal -> source_dw normal mvnormal GNone INone INone paths vshape = Ok s ->
  linear E -> E (fun _ => 1) = 1 -> white normal w (length timeline + length (pace_fn timeline)) E g ->
  const_arg args "theta" theta -> const_arg args "k" k -> const_arg args "sigma" sigma ->
  broadcasts (shp x0) w -> broadcasts (shp theta) w -> broadcasts (shp k) w -> broadcasts (shp sigma) w ->
  valid_timeline timeline -> nth_error timeline 0 = Some t0 -> (forall t, In t timeline -> t <= t0 + T) ->
  (length timeline + length (pace_fn timeline) <= fuel)%nat -> 0 <= h -> fine h timeline (pace_fn timeline) ->
  let run o := sde_call Rminus (ou_process (I := I) (at_step s) gi vshape paths x0 args) 0 pace_fn fuel (g o, inf) [length timeline] timeline in
  (forall o, exists s' xx, run o = Ok (s', xx)) /\
  forall i ti ix, nth_error timeline i = Some ti -> inb w ix ->
    bget x0 ix = x -> bget theta ix = th -> bget k ix = ka -> bget sigma ix = sg ->
    let X o := value_at (run o) i ix in
    Rabs (E X - oruh_mean x th ka sg (ti - t0)) <= C * h /\
    Rabs (E (fun o => (X o - E X) * (X o - E X)) - oruh_var x th ka sg (ti - t0)) <= C * h.
Proof.
  intro K0. set (L := 2 * Rabs ka + 1). set (ex := exp (L * T) - 1).
  set (cm := Rabs (ka * (th - x)) * (exp (Rabs ka * T) * Rabs ka)).
  set (cv := sg * sg * (exp (2 * Rabs ka * T) * (2 * Rabs ka))).
  set (q := ka * ka * (sg * sg * T * exp (L * T))).
  assert (KP := Rabs_pos ka). assert (LP : 0 < L) by (unfold L; lra). assert (IL : 0 < / L) by (apply Rinv_0_lt_compat; auto).
  assert (S2 := Rle_0_sqr sg). assert (KK := Rle_0_sqr ka). unfold Rsqr in S2, KK.
  assert (CM : 0 <= cm).
  { unfold cm. apply Rmult_le_pos; [apply Rabs_pos|]. apply Rmult_le_pos; auto. left; apply exp_pos. }
  assert (CV : 0 <= cv).
  { unfold cv. apply Rmult_le_pos; auto. apply Rmult_le_pos; [left; apply exp_pos|lra]. }
  exists ((cm + (cv + Rabs q)) / L * Rabs ex).
  assert (QA := Rabs_pos q). assert (EA := Rabs_pos ex).
  split. { apply Rmult_le_pos; auto. apply Rmult_le_pos; lra. }
  intros G I Omega normal mvnormal vshape paths s E g gi x0 theta k sigma args pace_fn fuel inf timeline t0 h w
    N_ok HS HE H1 HW CT CK CS BX BT BK BS V0 N0 HT HF Hh FI run.
  destruct (oruh_grid (I := I) normal mvnormal N_ok vshape paths s HS E g HE H1 gi x0 theta k sigma args pace_fn fuel inf timeline t0 h
    CT CK CS BX BT BK BS V0 N0 HF FI HW) as (RUN & gr & GP & G0 & GI & H). split; [exact RUN|].
  intros i ti ix Ni HI <- <- <- <- X. destruct (H i ti ix Ni HI) as (n & Hn & Et & EM & EV).
  set (x := bget x0 ix) in *. set (th := bget theta ix) in *. set (ka := bget k ix) in *. set (sg := bget sigma ix) in *.
  specialize (GI (t0 + T) HT).
  assert (T0 : 0 <= T). { apply nth_error_In in N0. specialize (HT t0 N0). lra. }
  assert (RI : t0 <= ti <= t0 + T) by (rewrite <- Et; auto).
  assert (QP : 0 <= q).
  { unfold q. apply Rmult_le_pos; auto. apply Rmult_le_pos; [apply Rmult_le_pos; auto|left; apply exp_pos]. }
  assert (XP : 0 <= ex).
  { unfold ex. assert (Z := exp_le 0 (L * T)). rewrite exp_0 in Z. assert (0 <= L * T) by (apply Rmult_le_pos; lra). lra. }
  rewrite (Rabs_right q), (Rabs_right ex) by lra.
  assert (EXT : exp (L * (ti - t0)) - 1 <= ex).
  { unfold ex. apply Rplus_le_compat_r. apply exp_le. apply Rmult_le_compat_l; lra. }
  assert (FIN : forall c c', 0 <= c -> c <= c' -> (c * h) / L * (exp (L * (ti - t0)) - 1) <= c' / L * ex * h).
  { intros c c' C0 CC. apply Rle_trans with (c * h / L * ex).
    - apply Rmult_le_compat_l; auto. apply Rmult_le_pos; [|lra]. apply Rmult_le_pos; auto.
    - replace (c * h / L * ex) with (c * (/ L * ex * h)) by (unfold Rdiv; ring). replace (c' / L * ex * h) with (c' * (/ L * ex * h)) by (unfold Rdiv; ring).
      apply Rmult_le_compat_r; auto. apply Rmult_le_pos; auto. apply Rmult_le_pos; lra. }
  assert (EL : forall c s t, t0 <= s <= t0 + T -> t0 <= t <= t0 + T -> Rabs (t - s) <= h ->
     Rabs (exp (- c * (t - t0)) - exp (- c * (s - t0))) <= h * (exp (Rabs c * T) * Rabs c)).
  { intros c u v RU RV UV.
    assert (B : forall u, t0 <= u <= t0 + T -> - c * (u - t0) <= Rabs c * T).
    { intros u' RU'. apply Rle_trans with (Rabs c * (u' - t0)).
      - apply Rmult_le_compat_r; [lra|]. rewrite <- Rabs_Ropp. apply Rle_abs.
      - apply Rmult_le_compat_l; [apply Rabs_pos|lra]. }
    apply Rle_trans with (1 := exp_lip (Rabs c * T) _ _ (B v RV) (B u RU)).
    replace (- c * (v - t0) - - c * (u - t0)) with (- c * (v - u)) by ring. rewrite Rabs_mult, Rabs_Ropp.
    replace (h * (exp (Rabs c * T) * Rabs c)) with (exp (Rabs c * T) * (Rabs c * h)) by ring.
    apply Rmult_le_compat_l; [left; apply exp_pos|]. apply Rmult_le_compat_l; auto. apply Rabs_pos. }
  assert (DE : forall c t, derivable_pt_lim (fun t => exp (- c * (t - t0))) t (- c * exp (- c * (t - t0)))).
  { intros c t. replace (- c * exp (- c * (t - t0))) with (exp (- c * (t - t0)) * (- c * 1)) by ring.
    apply (derivable_pt_lim_comp (fun t => - c * (t - t0)) exp); [|apply derivable_pt_lim_exp].
    apply (derivable_pt_lim_scal (fun t => t - t0)). replace 1 with (1 - 0) by ring.
    apply (derivable_pt_lim_minus (fun t => t) (fun _ => t0)); [apply derivable_pt_lim_id|apply derivable_pt_lim_const]. }
  assert (LK : 2 * Rabs ka <= L) by (unfold L; lra).
  split.
  - unfold X. unfold run. rewrite EM. rewrite <- Et at 1.
    apply Rle_trans with ((cm * h) / L * (exp (L * (ti - t0)) - 1)); [|apply FIN; lra].
    assert (Q := mpath_close gr (ka * th) ka x t0 (t0 + T) h GP GI G0 L LP LK (fun t => oruh_mean x th ka sg (t - t0)) (cm * h)).
    cbv beta in Q. rewrite <- Et. apply Q; auto; clear Q.
    + apply Rmult_le_pos; auto.
    + unfold oruh_mean. replace (- ka * (t0 - t0)) with 0 by ring. rewrite exp_0. ring.
    + intros t _. unfold oruh_mean.
      replace (ka * th - ka * (th - exp (- ka * (t - t0)) * (th - x))) with (0 - (- ka * exp (- ka * (t - t0)) * (th - x) + exp (- ka * (t - t0)) * 0)) by ring.
      apply (derivable_pt_lim_minus (fun _ => th)); [apply derivable_pt_lim_const|].
      apply (derivable_pt_lim_mult (fun t => exp (- ka * (t - t0))) (fun _ => th - x)); [apply DE|apply derivable_pt_lim_const].
    + intros u v RU RV UV. unfold oruh_mean.
      replace (ka * th - ka * (th - exp (- ka * (v - t0)) * (th - x)) - (ka * th - ka * (th - exp (- ka * (u - t0)) * (th - x))))
        with (ka * (th - x) * (exp (- ka * (v - t0)) - exp (- ka * (u - t0)))) by ring.
      rewrite Rabs_mult. unfold cm.
      replace (Rabs (ka * (th - x)) * (exp (Rabs ka * T) * Rabs ka) * h) with (Rabs (ka * (th - x)) * (h * (exp (Rabs ka * T) * Rabs ka))) by ring.
      apply Rmult_le_compat_l; [apply Rabs_pos|]. apply EL; auto.
  - unfold X, run. rewrite EV. 
    apply Rle_trans with (((cv + q) * h) / L * (exp (L * (ti - t0)) - 1)); [|apply FIN; lra].
    assert (Q := vpath_close gr ka sg t0 (t0 + T) h GP GI G0 L LP LK (fun t => oruh_var x th ka sg (t - t0)) (cv * h)).
    replace (t0 + T - t0) with T in Q by ring. fold q in Q.
    replace ((cv + q) * h) with (cv * h + h * q) by ring.
    cbv beta in Q. rewrite <- Et. apply Q; auto; clear Q.
    + apply Rmult_le_pos; auto.
    + unfold oruh_var. replace (-2 * ka * (t0 - t0)) with 0 by ring. rewrite exp_0. ring.
    + intros t _. unfold oruh_var. 
      replace (sg * sg - 2 * ka * (sg * sg / (2 * ka) * (1 - exp (-2 * ka * (t - t0))))) with (sg * sg / (2 * ka) * (0 - - (2 * ka) * exp (- (2 * ka) * (t - t0)))).
      2: { replace (-2 * ka * (t - t0)) with (- (2 * ka) * (t - t0)) by ring. field. auto. }
      apply (derivable_pt_lim_scal (fun t => 1 - exp (-2 * ka * (t - t0)))).
      apply (derivable_pt_lim_minus (fun _ => 1) (fun t => exp (-2 * ka * (t - t0)))); [apply derivable_pt_lim_const|].
      assert (D := DE (2 * ka) t). replace (- (2 * ka)) with (-2 * ka) in * by ring. exact D.
    + intros u v RU RV UV. unfold oruh_var.
      replace (sg * sg - 2 * ka * (sg * sg / (2 * ka) * (1 - exp (-2 * ka * (v - t0)))) - (sg * sg - 2 * ka * (sg * sg / (2 * ka) * (1 - exp (-2 * ka * (u - t0))))))
        with (sg * sg * (exp (- (2 * ka) * (v - t0)) - exp (- (2 * ka) * (u - t0)))).
      2: { replace (-2 * ka) with (- (2 * ka)) by ring. field. auto. }
      rewrite Rabs_mult, (Rabs_right (sg * sg)) by lra. unfold cv.
      replace (sg * sg * (exp (2 * Rabs ka * T) * (2 * Rabs ka)) * h) with (sg * sg * (h * (exp (2 * Rabs ka * T) * (2 * Rabs ka)))) by ring.
      apply Rmult_le_compat_l; auto. replace (2 * Rabs ka) with (Rabs (2 * ka)) by (rewrite Rabs_mult, (Rabs_right 2) by lra; ring). apply EL; auto.
Qed.
Print Assumptions C68_wiener_moments.
Print Assumptions C68_lognorm_moments.
Print Assumptions C68_oruh_moments.

(** *** Example: four equally likely states of the generator, that give 1 or -1 at each of the first two calls *)
Section Ex.
Definition ex_normal (s : list nat) (g : list R) : res (arr R) * list R := (Ok (mkArr s (fun _ => hd 0 g)), tl g).
Definition ex_mean (X : bool * bool -> R) : R := (X (true, true) + X (true, false) + X (false, true) + X (false, false)) / 4.
Definition ex_state (o : bool * bool) : list R := [if fst o then 1 else -1; if snd o then 1 else -1].
Lemma ex_white s : white ex_normal s 2 ex_mean ex_state.
Proof.
  intros ix _ n Hn. destruct n as [|[|n]]; [| |lia]; (split; [unfold ex_mean; cbn; lra|]); intros m Hm;
    (destruct m as [|[|m]]; [| |lia]); unfold ex_mean; cbn; lra.
Qed.
(** dx = 2 dt + 3 dw from 1: mean 3 and variance 9 at t = 1 *)
Definition ex_wiener : dict (M_sde.param R R) := [("mu"%string, PConst (ascalar 2)); ("sigma"%string, PConst (ascalar 3))].
Example C68_ex_moments s : source_dw ex_normal (fun _ => ex_normal) GNone INone INone 5 [2]%nat = Ok s ->
  let X o := value_at (sde_call Rminus (wiener_process (I := unit) (at_step s) false [2]%nat 5 (ascalar 1) ex_wiener) 0 (fun _ => [])
    2 (ex_state o, tt) [2%nat] [0; 1]) 1 [1; 4]%nat in
  ex_mean X = 3 /\ ex_mean (fun o => (X o - 3) * (X o - 3)) = 9.
Proof.
  intros HS X.
  destruct (C68_wiener_moments (I := unit) (Omega := bool * bool) ex_normal (fun _ => ex_normal)) with (vshape := [2%nat]) (paths := 5%nat) (s := s) (E := ex_mean) (g := ex_state)
    (gi := false) (x0 := @ascalar R 1) (mu := @ascalar R 2) (sigma := @ascalar R 3) (args := ex_wiener) (pace_fn := fun _ : list R => @nil R) (fuel := 2%nat) (inf := tt)
    (timeline := [0; 1]) (t0 := 0) as (_ & H); auto.
  - intros sh g. exists (mkArr sh (fun _ => hd 0 g)), (tl g). split; reflexivity.
  - split; [|split]; intros; unfold ex_mean; [rewrite !H; auto|field|field].
  - unfold ex_mean. field.
  - reflexivity.
  - reflexivity.
  - exists [2; 5]%nat, []. split; [reflexivity|constructor].
  - exists [2; 5]%nat, []. split; [reflexivity|constructor].
  - exists [2; 5]%nat, []. split; [reflexivity|constructor].
  - split; [discriminate|]. split; repeat constructor; unfold isnum; simpl; try (apply teqb_R_true; auto); try (apply tltb_R_true; lra).
  - apply ex_white.
  - destruct (H 1%nat 1 [1; 4]%nat eq_refl) as [EM EV]; [repeat constructor|].
    assert (M3 : ex_mean X = 3). { unfold X. cbn [length] in EM. rewrite EM. unfold wiener_mean. cbn. ring. }
    split; auto. transitivity (ex_mean (fun o => (X o - ex_mean X) * (X o - ex_mean X))); [rewrite M3; reflexivity|].
    unfold X. cbn [length] in EV. rewrite EV. unfold wiener_var. cbn. ring.
Qed.
End Ex.
