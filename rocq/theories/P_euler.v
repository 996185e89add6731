(** C68: the values given by an integration converge to the solution of the equation, as the steps get smaller. *)
From Coq Require Import String List Arith Bool ZArith Reals Lra Lia Sorting.Sorted.
From Verif Require Import Base BaseOrd BaseNum BaseArr BaseNd M_paths S_paths S_run L_ord L_paths8 L_nd
  M_sde S_sde L_sde L_sde2 L_sde3 M_presets S_presets L_presets S_integrate P_source4 S_euler L_euler.
Import ListNotations.
Open Scope R_scope.

(** *** No gaps longer than h *)
(** [steps=n], an integer greater than 1: n points at equal distances, as the documentation says, hence n - 1 steps *)
Theorem C68_fine_steps linspace n (timeline : list R) a :
  equally_spaced linspace -> (1 < n)%nat -> valid_timeline timeline -> hd_error timeline = Some a ->
  fine ((last timeline a - a) / INR (n - 1)) timeline (pace linspace (StepsScalar n) timeline).
Proof.
  intros EQ N V0 HD u v c d Hu Hv Lu Lv GAP. destruct V0 as (_ & _ & SS).
  destruct timeline as [|a' tl]; [discriminate|]. injection HD as ->.
  assert (LO : forall t, In t (a :: tl) -> a <= t).
  { intros t [<-|Ht]; [lra|]. apply StronglySorted_inv in SS. destruct SS as [_ F]. rewrite Forall_forall in F.
    specialize (F t Ht). apply before_R in F. simpl in F. lra. }
  assert (HI : forall l z, StronglySorted (before false) l -> forall t, In t l -> t <= last l z).
  { clear. intros l z S. induction l as [|x l IH]; intros t Ht; [easy|].
    apply StronglySorted_inv in S. destruct S as [S F]. destruct l as [|y l].
    - destruct Ht as [<-|[]]. simpl. lra.
    - specialize (IH S). change (last (x :: y :: l) z) with (last (y :: l) z).
      destruct Ht as [<-|Ht]; auto. apply Rle_trans with y; [|apply IH; left; auto].
      rewrite Forall_forall in F. specialize (F y (or_introl eq_refl)). apply before_R in F. simpl in F. lra. }
  specialize (HI (a :: tl) a SS).
  set (z := last (a :: tl) a) in *. set (h := (z - a) / INR (n - 1)) in *.
  assert (A1 := LO u Hu). assert (A2 := HI v Hv).
  assert (NP : 0 < INR (n - 1)) by (apply lt_0_INR; lia).
  assert (ZA : a <= z) by (apply HI; left; auto).
  assert (H0 : 0 <= h) by (unfold h; apply Rmult_le_pos; [lra|left; apply Rinv_0_lt_compat; auto]).
  assert (HP : 0 < h). { unfold h. apply Rmult_lt_0_compat; [lra|apply Rinv_0_lt_compat; auto]. }
  assert (EZ : z = a + INR (n - 1) * h) by (unfold h; field; lra).
  destruct tl as [|b tl]. { unfold z in *; simpl in *. lra. }
  set (k := up ((c - a) / h)). destruct (archimed ((c - a) / h)) as [K1 K2]. fold k in K1, K2.
  assert (CH : c - a = (c - a) / h * h) by (field; lra).
  assert (C0 : 0 <= (c - a) / h) by (apply Rmult_le_pos; [lra|left; apply Rinv_0_lt_compat; auto]).
  assert (KP : (0 < k)%Z) by (apply lt_IZR; lra).
  assert (EK : IZR k = INR (Z.to_nat k)). { rewrite INR_IZR_INZ, Z2Nat.id by lia. auto. }
  assert (P1 : c < a + IZR k * h). { assert ((c - a) / h * h < IZR k * h) by (apply Rmult_lt_compat_r; lra). lra. }
  assert (P2 : a + IZR k * h <= c + h).
  { assert (IZR k * h <= ((c - a) / h + 1) * h) by (apply Rmult_le_compat_r; lra). lra. }
  exists (a + IZR k * h). split; [right|lra].
  assert (KN : (Z.to_nat k < n)%nat).
  { assert (IZR k * h < INR (n - 1) * h) by lra. apply Rmult_lt_reg_r in H; auto. rewrite EK in H. apply INR_lt in H. lia. }
  rewrite EK. unfold pace. fold z. apply nth_error_In with (n := Z.to_nat k). rewrite (EQ a z n _ N KN). reflexivity.
Qed.

(** [steps=None]: the steps of the timeline *)
Theorem C68_fine_timeline linspace h (timeline : list R) : valid_timeline timeline -> 0 <= h ->
  (forall i s t, nth_error timeline i = Some s -> nth_error timeline (S i) = Some t -> t - s <= h) ->
  fine h timeline (pace linspace StepsNone timeline).
Proof.
  intros (_ & _ & SS) H0 H u v c d Hu Hv Lu Lv GAP.
  assert (G : forall l x, (forall i s t, nth_error (x :: l) i = Some s -> nth_error (x :: l) (S i) = Some t -> t - s <= h) ->
    x <= c -> In v (x :: l) -> exists p, In p (x :: l) /\ c < p < d).
  { clear - H0 Lv GAP. induction l as [|y l IH]; intros x H Hx Hv.
    - destruct Hv as [->|[]]. lra.
    - destruct (Rle_or_lt y c) as [Hy|Hy].
      + destruct (IH y) as (p & Hp & Lp); auto.
        * intros i s t. apply (H (S i)).
        * destruct Hv as [->|Hv]; auto. lra.
        * exists p. split; auto. right; auto.
      + exists y. split; [right; left; auto|]. specialize (H 0%nat x y eq_refl eq_refl). lra. }
  destruct timeline as [|x l]; [easy|].
  destruct (G l x H) as (p & Hp & Lp); auto; [|exists p; auto].
  destruct Hu as [->|Hu]; auto. apply StronglySorted_inv in SS. destruct SS as [_ F]. rewrite Forall_forall in F.
  specialize (F u Hu). apply before_R in F. simpl in F. lra.
Qed.

(** *** Additive noise, path by path *)
(** The equation dx = f(t, x) dt + b dw, of a source with increments those of a path W (a process used as a source, or one
    with memory): at all points of the timeline, before and after the initial one, the distance from the solution is not
    more than om/L (exp(L |t - t0|) - 1), where L is a Lipschitz constant of f, om bounds the variation of f(t, X(t)) over
    times not more than h apart, and h bounds the steps. *)
Theorem C68_pathwise {Wd I : Type} (dw : Wd -> R -> R -> res (Wd * arr R)) vshape paths (Adm : Wd -> Prop) W
  sde (log gi : bool) x0 b args f L om h A B X i0 pace_fn fuel wd inf (timeline : list R) p0 t0 :
  let w := (vshape ++ [paths])%list in
  additive_source w dw Adm W -> Adm wd -> broadcasts (shp x0) w -> drift_noise w sde args f b ->
  0 < L -> lipschitz w L f -> solves w A B f b W X -> 0 <= om ->
  (forall s t, A <= s <= B -> A <= t <= B -> Rabs (t - s) <= h -> within w om (f t (X t)) (f s (X s))) ->
  valid_timeline timeline -> start_index (length timeline) i0 p0 -> nth_error timeline p0 = Some t0 ->
  (length timeline + length (pace_fn timeline) <= fuel)%nat ->
  (forall t, In t timeline -> A <= t <= B) -> fine h timeline (pace_fn timeline) ->
  (forall ix, inb w ix -> X t0 ix = if log then ln (bget x0 ix) else bget x0 ix) ->
  exists s' xx,
    sde_call Rminus (mk_sde dw_ids (dw_src dw) log sde gi vshape paths x0 args : integ R R Wd I) i0 pace_fn fuel
             (wd, inf) [length timeline] timeline = Ok (s', xx) /\
    length xx = length timeline /\
    forall i ti, nth_error timeline i = Some ti ->
      exists y, nth_error xx i = Some (Some y) /\
        within w (om / L * (exp (L * Rabs (ti - t0)) - 1)) (fun ix => if log then ln (y ix) else y ix) (X ti) /\
        (log = true -> forall ix, inb w ix -> 0 < y ix).
Proof.
  intros w HW AD HX HS HL LIP SOL HO OM V0 SI N0 HF RNG FI X0.
  apply (pathwise dw vshape paths Adm W HW sde log gi x0 b args f L om h A B X) with (p0 := p0); auto.
  apply can_broadcasts. auto.
Qed.

(** Continuity of f(t, X(t)) is enough to converge: given a tolerance there are steps small enough for all timelines
    between A and B. *)
Theorem C68_converges {Wd I : Type} (dw : Wd -> R -> R -> res (Wd * arr R)) vshape paths (Adm : Wd -> Prop) W
  sde (log gi : bool) x0 b args f L A B X t0 :
  let w := (vshape ++ [paths])%list in
  additive_source w dw Adm W -> broadcasts (shp x0) w -> drift_noise w sde args f b ->
  0 < L -> lipschitz w L f -> solves w A B f b W X ->
  (forall ix, inb w ix -> forall t, A <= t <= B -> continuity_pt (fun t => f t (X t) ix) t) ->
  (forall ix, inb w ix -> X t0 ix = if log then ln (bget x0 ix) else bget x0 ix) ->
  forall eps, 0 < eps -> exists h, 0 < h /\
  forall i0 pace_fn fuel wd inf (timeline : list R) p0,
  Adm wd -> valid_timeline timeline -> start_index (length timeline) i0 p0 -> nth_error timeline p0 = Some t0 ->
  (length timeline + length (pace_fn timeline) <= fuel)%nat ->
  (forall t, In t timeline -> A <= t <= B) -> fine h timeline (pace_fn timeline) ->
  exists s' xx,
    sde_call Rminus (mk_sde dw_ids (dw_src dw) log sde gi vshape paths x0 args : integ R R Wd I) i0 pace_fn fuel
             (wd, inf) [length timeline] timeline = Ok (s', xx) /\
    forall i ti, nth_error timeline i = Some ti ->
      exists y, nth_error xx i = Some (Some y) /\
        within w eps (fun ix => if log then ln (y ix) else y ix) (X ti).
Proof.
  intros w HW HX HS HL LIP SOL CO X0 eps HE.
  set (K := / L * (exp (L * (B - A)) - 1)). 
  assert (IL : 0 < / L) by (apply Rinv_0_lt_compat; auto).
  set (om := eps / (Rabs K + 1)).
  assert (KP := Rabs_pos K). assert (HO : 0 < om) by (apply Rmult_lt_0_compat; [lra|apply Rinv_0_lt_compat; lra]).
  assert (UC : forall l, (forall ix, In ix l -> inb w ix) -> exists h, 0 < h /\ forall ix, In ix l -> forall s t, A <= s <= B -> A <= t <= B ->
     Rabs (t - s) <= h -> Rabs (f t (X t) ix - f s (X s) ix) <= om).
  { induction l as [|ix l IH]; intro Hl. { exists 1. split; [lra|easy]. }
    destruct IH as (h1 & P1 & H1); [intros; apply Hl; right; auto|].
    destruct (Heine_cor2 (CO ix (Hl ix (or_introl eq_refl))) (mkposreal om HO)) as (d & Hd).
    exists (Rmin h1 (d / 2)). assert (DP := cond_pos d). split; [apply Rmin_glb_lt; lra|].
    intros jx [<-|Hj] s t Rs Rt HH.
    - left. apply Hd; auto. apply Rle_lt_trans with (1 := HH). apply Rle_lt_trans with (1 := Rmin_r _ _). lra.
    - apply H1; auto. apply Rle_trans with (1 := HH). apply Rmin_l. }
  destruct (UC (ndindex w)) as (h & HP & HH). { intros ix. apply in_ndindex. }
  exists h. split; auto. intros i0 pace_fn fuel wd inf timeline p0 AD V0 SI N0 HF RNG FI.
  destruct (C68_pathwise (I := I) dw vshape paths Adm W sde log gi x0 b args f L om h A B X i0 pace_fn fuel wd inf timeline p0 t0)
    as (s' & xx & E & _ & H); auto.
  { lra. }
  { intros s t Rs Rt Hst ix HI. apply HH; auto. apply in_ndindex. auto. }
  exists s', xx. split; auto. intros i ti Ni. destruct (H i ti Ni) as (y & EY & HY & _). exists y. split; auto.
  intros ix HI. apply Rle_trans with (1 := HY ix HI).
  assert (RT : Rabs (ti - t0) <= B - A).
  { apply nth_error_In in Ni. apply nth_error_In in N0. apply RNG in Ni. apply RNG in N0. apply Rabs_le. lra. }
  assert (EX : exp (L * Rabs (ti - t0)) <= exp (L * (B - A))).
  { assert (L * Rabs (ti - t0) <= L * (B - A)) by (apply Rmult_le_compat_l; lra).
    destruct H0 as [H0|H0]; [left; apply exp_increasing; auto|rewrite H0; lra]. }
  apply Rle_trans with (om * K).
  { unfold K, Rdiv. rewrite Rmult_assoc. apply Rmult_le_compat_l; [lra|]. apply Rmult_le_compat_l; lra. }
  apply Rle_trans with (om * (Rabs K + 1)).
  { apply Rmult_le_compat_l; [lra|]. assert (K <= Rabs K) by apply Rle_abs. lra. }
  unfold om. right. field. lra.
Qed.
Print Assumptions C68_fine_steps.
Print Assumptions C68_fine_timeline.
Print Assumptions C68_pathwise.
Print Assumptions C68_converges.

(** *** Example: dx = - x dt + dw from 1 at t = 0, with W(t) = t^2, has the solution 2t - 2 + 3 exp(-t); with steps=n the
    error at t = 1 is not more than 2 (e - 1)/(n - 1) *)
Section Ex.
Definition sq_src (u : unit) (t dt : R) : res (unit * arr R) := Ok (tt, ascalar ((t + dt) ^ 2 - t ^ 2)).
Definition ex_args : dict (param R R) :=
  [("theta"%string, PConst (ascalar 0)); ("k"%string, PConst (ascalar 1)); ("sigma"%string, PConst (ascalar 1))].
Definition ex_sol (t : R) (_ : list nat) : R := 2 * t - 2 + 3 * exp (- t).
Lemma ex_drift : drift_noise [1%nat] ou_sde ex_args (fun t x ix => - x ix) (ascalar 1).
Proof.
  split. { exists [1%nat], []. split; [reflexivity|constructor]. }
  intros t x. eexists. split; [reflexivity|]. split; [exists [], [1%nat]; split; [reflexivity|]; constructor; [auto|constructor]|].
  intros ix HI. inversion HI as [|i n jx s L F]; subst. inversion F; subst. destruct i; [|lia]. cbn. ring.
Qed.
Lemma derive_exp_neg t : derivable_pt_lim (fun s => exp (- s)) t (- exp (- t)).
Proof.
  replace (- exp (- t)) with (exp (- t) * -1) by ring. apply (derivable_pt_lim_comp (fun s => - s) exp); [|apply derivable_pt_lim_exp].
  apply (derivable_pt_lim_opp (fun s => s)). apply derivable_pt_lim_id.
Qed.
Lemma ex_solves A B : solves [1%nat] A B (fun t x ix => - x ix) (ascalar 1) (fun t _ => t ^ 2) ex_sol.
Proof.
  intros ix HI t _. unfold ex_sol. 
  replace (- (2 * t - 2 + 3 * exp (- t))) with (2 * 1 - 0 + 3 * (- exp (- t)) - 1 * (INR 2 * t ^ (pred 2))) by (simpl; ring).
  apply (derivable_pt_lim_minus (fun s => 2 * s - 2 + 3 * exp (- s)) (fun s => bget (ascalar 1) ix * s ^ 2)).
  - apply (derivable_pt_lim_plus (fun s => 2 * s - 2) (fun s => 3 * exp (- s))).
    + apply (derivable_pt_lim_minus (fun s => 2 * s) (fun _ => 2)); [|apply derivable_pt_lim_const].
      apply (derivable_pt_lim_scal (fun s => s)). apply derivable_pt_lim_id.
    + apply (derivable_pt_lim_scal (fun s => exp (- s))). apply derive_exp_neg.
  - apply (derivable_pt_lim_scal (fun s => s ^ 2)). apply derivable_pt_lim_pow.
Qed.
Example C68_ex linspace n : equally_spaced linspace -> (1 < n)%nat ->
  exists s' xx y,
    sde_call Rminus (ou_process (I := unit) sq_src false [] 1 (ascalar 1) ex_args) 0 (pace linspace (StepsScalar n))
      (2 + length (linspace 0 1 n)) (tt, tt) [2%nat] [0; 1] = Ok (s', xx) /\
    nth_error xx 1 = Some (Some y) /\ Rabs (y [0%nat] - 3 * exp (-1)) <= 2 / INR (n - 1) * (exp 1 - 1).
Proof.
  intros LS N. set (h := 1 / INR (n - 1)). assert (NP : 0 < INR (n - 1)) by (apply lt_0_INR; lia).
  assert (HP : 0 < h) by (unfold h; apply Rmult_lt_0_compat; [lra|apply Rinv_0_lt_compat; auto]).
  assert (V0 : valid_timeline [0; 1]).
  { split; [discriminate|]. split; repeat constructor; unfold isnum; simpl; try (apply teqb_R_true; auto); try (apply tltb_R_true; lra). }
  destruct (C68_pathwise (I := unit) sq_src [] 1 (fun _ => True) (fun t _ => t ^ 2) ou_sde false false (ascalar 1) (ascalar 1) ex_args
    (fun t x ix => - x ix) 1 (2 * h) h 0 1 ex_sol 0 (pace linspace (StepsScalar n)) (2 + length (linspace 0 1 n)) tt tt [0; 1] 0%nat 0)
    as (s' & xx & E & _ & H); auto.
  - intros wd t dt _. exists tt, (ascalar ((t + dt) ^ 2 - t ^ 2)). repeat split; auto.
  - exists [1%nat], []. split; [reflexivity|constructor].
  - apply ex_drift.
  - lra.
  - intros t x y e W ix HI. specialize (W ix HI). replace (- x ix - - y ix) with (- (x ix - y ix)) by ring. rewrite Rabs_Ropp. lra.
  - apply ex_solves.
  - lra.
  - intros s t Rs Rt HH ix HI. unfold ex_sol.
    assert (D : forall t, derivable_pt_lim (fun t => - (2 * t - 2 + 3 * exp (- t))) t (- (2 * 1 - 0 + 3 * (- exp (- t))))).
    { intro u. apply (derivable_pt_lim_opp (fun t => 2 * t - 2 + 3 * exp (- t))).
      apply (derivable_pt_lim_plus (fun s => 2 * s - 2) (fun s => 3 * exp (- s))).
      + apply (derivable_pt_lim_minus (fun s => 2 * s) (fun _ => 2)); [|apply derivable_pt_lim_const].
        apply (derivable_pt_lim_scal (fun s => s)). apply derivable_pt_lim_id.
      + apply (derivable_pt_lim_scal (fun s => exp (- s))). apply derive_exp_neg. }
    assert (K : forall s t, 0 <= s <= 1 -> 0 <= t <= 1 -> s < t -> t - s <= h ->
      Rabs (- (2 * t - 2 + 3 * exp (- t)) - - (2 * s - 2 + 3 * exp (- s))) <= 2 * h).
    { clear s t Rs Rt HH. intros s t Rs Rt ST HH.
      destruct (MVT_cor2 _ _ s t ST (fun c _ => D c)) as (c & Ec & Hc). rewrite Ec. rewrite Rabs_mult.
      assert (exp (- c) <= 1). { rewrite <- exp_0. left. apply exp_increasing. lra. }
      assert (0 < exp (- c)) by apply exp_pos.
      apply Rmult_le_compat; try apply Rabs_pos; [apply Rabs_le; lra|rewrite Rabs_right; lra]. }
    destruct (Rtotal_order s t) as [L|[->|L]].
    + apply K; auto. rewrite Rabs_right in HH by lra. auto.
    + rewrite Rminus_diag_eq, Rabs_R0 by auto. lra.
    + rewrite Rabs_minus_sym. apply K; auto. rewrite Rabs_left in HH by lra. lra.
  - unfold start_index. simpl. lia.
  - intros t [<-|[<-|[]]]; lra.
  - assert (F := C68_fine_steps linspace n [0; 1] 0 LS N V0 eq_refl). cbn [last] in F. replace ((1 - 0) / INR (n - 1)) with h in F by (unfold h; field; lra). exact F.
  - intros ix HI. unfold ex_sol. rewrite Ropp_0, exp_0. cbn. ring.
  - destruct (H 1%nat 1 eq_refl) as (y & EY & HY & _). exists s', xx, y. split; auto. split; auto.
    assert (HI : inb [1%nat] [0%nat]) by (repeat constructor). specialize (HY [0%nat] HI). cbv beta iota in HY. unfold ex_sol in HY.
    replace (1 - 0) with 1 in HY by ring. rewrite Rabs_R1 in HY.
    replace (1 * 1) with 1 in HY by ring. replace (2 * 1 - 2 + 3 * exp (Ropp 1)) with (3 * exp (-1)) in HY by (replace (Ropp 1) with (-1) by ring; ring).
    replace (2 * h / 1) with (2 / INR (n - 1)) in HY by (unfold h; field; lra). exact HY.
Qed.
End Ex.
