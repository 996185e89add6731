(** Lemmas on integrations of linear equations with Gaussian increments: the law of values. *)
From Coq Require Import String List Arith Bool ZArith Reals Lra Lia Sorted.
From Coquelicot Require Import Coquelicot.
From Verif Require Import Base BaseOrd BaseNum BaseArr M_paths S_paths S_run L_ord L_paths8
  M_process M_source S_source M_sde S_sde L_sde L_sde2 L_sde3 M_presets S_presets L_presets M_integrate S_integrate P_source P_source4 S_true2 S_euler L_euler L_euler2
  BaseNd BaseIdx S_process L_nd P_source3 M_rv S_rv M_analytical S_analytical S_law P_chf L_law L_law2 L_law4 L_law5 S_gval L_gval L_gval2.
Import ListNotations.
Local Open Scope R_scope.

(** a grid that has the times of the timeline at kk *)
Definition on_grid (timeline : list R) (pc : list R) (t0 : R) (gr : list R) (kk : nat -> nat) : Prop :=
  (forall n, (S n < List.length gr)%nat -> 0 < gap gr n) /\
  (forall h n, fine h timeline pc -> (S n < List.length gr)%nat -> gap gr n <= h) /\
  nth 0 gr 0 = t0 /\
  forall i, (i < List.length timeline)%nat -> (kk i < List.length gr)%nat /\ nth (kk i) gr 0 = nth i timeline 0.

Section Values.
Context {G I : Type}.
Variable L : nat -> (G -> R) -> R.
Hypothesis HL : is_law L.
Variable ig : integ R R G I.
Variables (w out : list nat).
Hypothesis TI : total_integ ig (fun _ => True).
Variable inc : G -> R -> R -> G * (list nat -> R).
Variables (v0 al ka b : list nat -> R).
Hypothesis HN : forall u t t' x u' x', euler_next Rminus ig u t t' x = Ok (u', x') ->
  u' = fst (inc u t (t' - t)) /\ forall ix, inb w ix -> x' ix = x ix + (al ix - ka ix * x ix) * (t' - t) + b ix * snd (inc u t (t' - t)) ix.
Hypothesis HI : forall t x, ig_init ig t = Ok x -> forall ix, inb w ix -> (if ig_log ig then ln (x ix) else x ix) = v0 ix.
Variable O : list nat -> list nat -> R.
Hypothesis HO : forall t x y, ig_let ig t x = Ok y -> forall ix, inb out ix -> y ix = rsum (fun jx => O ix jx * x jx) (ndindex w).
Variables (pace_fn : list R -> list R) (fuel : nat) (inf : I) (timeline : list R) (t0 : R).
Hypothesis V0 : valid_timeline timeline.
Hypothesis N0 : nth_error timeline 0 = Some t0.
Hypothesis HF : (List.length timeline + List.length (pace_fn timeline) <= fuel)%nat.
Variable cw : list nat -> list nat -> R.
Hypothesis STEP : forall t dt u D Psi z, 0 < dt -> em L D Psi z ->
  em L (S D) (one_step inc w u t dt Psi) (cexp (RtoC (dt / 2) * qsum cw (ndindex w) u)%C * z)%C.

Lemma gauss_run d : (List.length timeline + List.length (pace_fn timeline) <= d)%nat ->
  let run g := sde_call Rminus ig 0 pace_fn fuel (g, inf) [List.length timeline] timeline in
  let N := List.length timeline in
  (forall g, exists s' xx, run g = Ok (s', xx)) /\
  (ig_log ig = true -> forall g i ix, (i < N)%nat -> inb out ix -> 0 < value_at (run g) i ix) /\
  exists gr kk, on_grid timeline (pace_fn timeline) t0 gr kk /\
    gaussian (L d) (entries N out)
      (fun g a => let v := value_at (run g) (fst a) (snd a) in if ig_log ig then ln v else v)
      (fun a => rsum (fun jx => O (snd a) jx * mpath gr (al jx) (ka jx) (v0 jx) (kk (fst a))) (ndindex w))
      (fun a c => rsum (fun jx => rsum (fun kx => O (snd a) jx * O (snd c) kx * acov gr cw ka b (kk (fst a), jx) (kk (fst c), kx) (List.length gr - 1)) (ndindex w)) (ndindex w)).
Proof.
  intros Hd run N. destruct (grid_exists timeline (pace_fn timeline) t0) as (gr & GR).
  set (lin := fun (x : list nat -> R) ix => rsum (fun jx => O ix jx * x jx) (ndindex w)).
  set (outf := fun (x : list nat -> R) ix => if ig_log ig then exp (lin x ix) else lin x ix).
  assert (RUN := fun g => awalk_run ig w out TI inc v0 al ka b HN HI outf
    ltac:(intros t x y E ix HX; unfold fin, outf; destruct (ig_log ig); cbn [nexp Num_R]; rewrite (HO t x y E ix HX); reflexivity)
    ltac:(intros x x' ix HX EX; unfold outf; replace (lin x' ix) with (lin x ix); [reflexivity|unfold lin; apply rsum_ext; intros jx HJ; rewrite EX by (apply in_ndindex; auto); reflexivity])
    pace_fn fuel g inf timeline t0 gr V0 N0 HF GR).
  split. { intro g. destruct (RUN g) as (s' & xx & E & _). exists s', xx. exact E. }
  split. { intros EL g i ix Hi HX. destruct (RUN g) as (s' & xx & E & _ & H). destruct (nth_error timeline i) as [ti|] eqn:Ni; [|apply nth_error_None in Ni; unfold N in Hi; lia].
    destruct (H i ti Ni) as (n & y & _ & Ny & Hy). unfold value_at, run. rewrite E, Ny, Hy by auto. unfold outf. rewrite EL. apply exp_pos. }
  assert (I0 : In t0 timeline) by (eapply nth_error_In; eauto).
  assert (SG : StronglySorted Rlt gr) by (destruct GR as [S _]; apply sorted_before; auto).
  assert (ND : NoDup gr).
  { clear - SG. induction SG as [|x l S IH F]; constructor; auto. intro H. rewrite Forall_forall in F. specialize (F x H). lra. }
  assert (INC : incl gr (timeline ++ pace_fn timeline)).
  { intros t Ht. apply InT_R in Ht. apply GR in Ht. apply in_or_app. destruct Ht as [[Ht|[Ht _]] _]; apply InT_R in Ht; auto. }
  assert (LG : (List.length gr <= List.length timeline + List.length (pace_fn timeline))%nat).
  { rewrite <- app_length. apply NoDup_incl_length; auto. }
  assert (ST : StronglySorted Rlt timeline).
  { destruct V0 as (_ & _ & SS). clear - SS. induction SS as [|x l S IH F]; constructor; auto. rewrite Forall_forall in *. intros y Hy. specialize (F y Hy). apply before_false in F. exact F. }
  assert (MX : exists B, forall t, In t timeline -> t0 <= t <= B).
  { assert (MIN : forall t, In t timeline -> t0 <= t).
    { intros t Ht. destruct timeline as [|a tl]; [easy|]. injection N0 as ->. destruct Ht as [->|Ht]; [lra|].
      apply StronglySorted_inv in ST. destruct ST as [_ F]. rewrite Forall_forall in F. specialize (F t Ht). lra. }
    assert (MX : forall l : list R, exists B, forall t, In t l -> t <= B).
    { induction l as [|y l (B & HB)]; [exists 0; easy|]. exists (Rmax y B). intros t [<-|Ht]; [apply Rmax_l|].
      apply Rle_trans with B; auto. apply Rmax_r. }
    destruct (MX timeline) as (B & HB). exists B. intros t Ht. auto. }
  destruct MX as (B0 & HB0).
  assert (IG : forall t, In t timeline -> In t gr).
  { intros t Ht. apply InT_R. apply GR. split; [left; apply InT_R; auto|]. destruct (HB0 t Ht) as [[Q|Q] _]; [right; apply before_false; auto|left; apply teqb_R_true; auto]. }
  assert (POS : forall n, (S n < List.length gr)%nat -> 0 < gap gr n).
  { intros n Hn. assert (Q := sorted_nth _ _ (sorted_lt _ SG) n Hn). unfold gap. lra. }
  set (kk := fun i => place gr (nth i timeline 0)).
  assert (KK : forall i, (i < N)%nat -> (kk i < List.length gr)%nat /\ nth (kk i) gr 0 = nth i timeline 0).
  { intros i Hi. apply place_nth. apply IG. apply nth_In. exact Hi. }
  exists gr, kk. split.
  { split; [exact POS|]. split; [|split; [|exact KK]].
    - intros h n FI Hn. destruct (sorted_nth _ _ (grid_away h t0 B0 _ _ _ _ _ FI I0 HB0 GR) n Hn) as (_ & _ & Q2 & _). specialize (POS n Hn).
      unfold gap in *. rewrite Rabs_right in Q2 by lra. lra.
    - destruct (grid_head false timeline (pace_fn timeline) t0 gr) as (s & g' & EG' & Es); auto.
      + apply teqb_R_true; auto.
      + apply InT_R; auto.
      + rewrite EG'. apply teqb_R_true in Es. auto. }
  assert (G1 : (0 < List.length gr)%nat) by (specialize (IG t0 I0); destruct gr; [easy|cbn; lia]).
  assert (EV : forall g i ix, (i < N)%nat -> inb out ix -> (let v := value_at (run g) i ix in if ig_log ig then ln v else v) = lin (awalk inc gr v0 al ka b (kk i) g) ix).
  { intros g i ix Hi HX. destruct (RUN g) as (s' & xx & E & _ & H). destruct (nth_error timeline i) as [ti|] eqn:Ni; [|apply nth_error_None in Ni; unfold N in Hi; lia].
    destruct (H i ti Ni) as (n & y & Hn & Ny & Hy). specialize (Hy ix HX).
    assert (n = kk i). { rewrite NoDup_nth_error in ND. destruct (KK i Hi) as [K1 K2]. apply ND; [apply nth_error_Some; congruence|]. rewrite Hn. rewrite (nth_error_nth' gr 0) by auto. rewrite K2. f_equal. symmetry. apply nth_error_nth; auto. }
    subst n. cbv zeta. unfold value_at, run. rewrite E, Ny, Hy. unfold outf. destruct (ig_log ig); rewrite ?ln_exp; reflexivity. }
  set (K := (List.length gr - 1)%nat).
  assert (AG := awalk_gaussian L HL inc gr w cw
    ltac:(intros n u D Psi z Hn HP; apply STEP; auto) v0 al ka b d K N kk
    ltac:(unfold K; lia) ltac:(unfold K; lia) ltac:(intros i Hi; unfold K; specialize (KK i Hi); lia)).
  destruct HL as [HE _].
  assert (AO := gaussian_affine (L d) (HE d) (entries N w) (entries N out) _ _ _ (fun _ => 0)
    (fun a c => if Nat.eq_dec (fst a) (fst c) then O (snd a) (snd c) else 0) AG).
  assert (CL : forall i ix (f : nat * list nat -> R), (i < N)%nat -> rsum (fun c => (if Nat.eq_dec i (fst c) then O ix (snd c) else 0) * f c) (entries N w) = rsum (fun jx => O ix jx * f (i, jx)) (ndindex w)).
  { intros i ix f Hi. unfold entries. rewrite rsum_prod.
    rewrite (rsum_ext _ (fun n => if Nat.eq_dec i n then rsum (fun jx => O ix jx * f (n, jx)) (ndindex w) else 0)).
    - apply (rsum_one Nat.eq_dec (fun n => rsum (fun jx => O ix jx * f (n, jx)) (ndindex w))); [apply seq_NoDup|apply in_seq; lia].
    - intros n _. cbn [fst snd]. destruct (Nat.eq_dec i n); [reflexivity|]. apply rsum_zero. intros. ring. }
  eapply gaussian_ext; [apply HE|exact AO|..].
  - intros g [i ix] Ha. apply in_prod_iff in Ha. destruct Ha as [Hi Hix]. apply in_seq in Hi. apply in_ndindex in Hix. cbn [fst snd]. rewrite EV by (auto; lia). rewrite CL by lia. unfold lin. cbn [fst snd]. ring.
  - intros [i ix] Ha. apply in_prod_iff in Ha. destruct Ha as [Hi Hix]. apply in_seq in Hi. cbn [fst snd]. rewrite CL by lia. cbn [fst snd]. ring.
  - intros [i ix] [j jx] Ha Hc. apply in_prod_iff in Ha. destruct Ha as [Hi Hix]. apply in_seq in Hi. apply in_prod_iff in Hc. destruct Hc as [Hj Hjx]. apply in_seq in Hj. cbn [fst snd].
    rewrite (rsum_ext _ (fun a => (if Nat.eq_dec i (fst a) then O ix (snd a) else 0) * rsum (fun kx => O jx kx * acov gr cw ka b (kk (fst a), snd a) (kk j, kx) K) (ndindex w))).
    + rewrite CL by lia. cbn [fst snd]. apply rsum_ext. intros ax _. rewrite <- rsum_scal. apply rsum_ext. intros cx _. ring.
    + intros a _. assert (Q := CL j jx (fun c => acov gr cw ka b (kk (fst a), snd a) (kk (fst c), snd c) K) ltac:(lia)). cbn [fst snd] in Q. rewrite <- Q, <- rsum_scal. apply rsum_ext. intros c _. ring.
Qed.
End Values.
