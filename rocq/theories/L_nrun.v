(** Lemmas on integrations whose steps are any function of values and of increments: values along the grid. *)
From Coq Require Import String List Arith Bool ZArith Reals Lra Lia Sorted.
From Coquelicot Require Import Coquelicot.
From Verif Require Import Base BaseOrd BaseNum BaseArr M_paths S_paths S_run L_ord L_paths8
  M_process M_source S_source M_sde S_sde L_sde L_sde2 L_sde3 M_presets S_presets L_presets M_integrate S_integrate P_source P_source4 S_true2 S_euler L_euler L_euler2
  BaseNd BaseIdx S_process L_nd P_source3 M_rv S_rv M_analytical S_analytical S_law P_chf L_law L_law2 L_law4 L_law5 S_gval L_gval L_gval2 L_gval3 L_tval L_tval2.
Import ListNotations.
Local Open Scope R_scope.

(** *** values along the grid *)
Section Walk.
Context {G : Type}.
Variables (inc : G -> R -> R -> G * (list nat -> R)) (Fs : R -> R -> (list nat -> R) -> (list nat -> R) -> list nat -> R) (gr : list R) (v0 : list nat -> R).
Fixpoint fwalk (n : nat) (g : G) (ix : list nat) : R :=
  match n with O => v0 ix | S n => Fs (nth n gr 0) (gap gr n) (fwalk n g) (move inc gr n g) ix end.
(** k steps, starting at n with values x and a state g *)
Fixpoint fgo (k n : nat) (x : list nat -> R) (g : G) : list nat -> R :=
  match k with
  | O => x
  | S k => let p := inc g (nth n gr 0) (gap gr n) in fgo k (S n) (Fs (nth n gr 0) (gap gr n) x (snd p)) (fst p)
  end.
Lemma fgo_walk g k : forall n, fgo k n (fwalk n g) (gstate inc gr n g) = fwalk (n + k) g.
Proof.
  induction k as [|k IH]; intro n; [rewrite Nat.add_0_r; reflexivity|]. rewrite Nat.add_succ_r. rewrite <- Nat.add_succ_l, <- IH. reflexivity.
Qed.
End Walk.

(** *** runs *)
Section Run.
Context {G I : Type}.
Variable ig : integ R R G I.
Variables (w out : list nat).
Hypothesis TI : total_integ ig (fun _ => True).
Variable inc : G -> R -> R -> G * (list nat -> R).
Variables (v0 : list nat -> R) (Fs : R -> R -> (list nat -> R) -> (list nat -> R) -> list nat -> R).
Hypothesis FX : forall t dt x x' z ix, inb w ix -> (forall jx, inb w jx -> x jx = x' jx) -> Fs t dt x z ix = Fs t dt x' z ix.
Hypothesis HN : forall u t t' x u' x', euler_next Rminus ig u t t' x = Ok (u', x') ->
  u' = fst (inc u t (t' - t)) /\ forall ix, inb w ix -> x' ix = Fs t (t' - t) x (snd (inc u t (t' - t))) ix.
Hypothesis HI : forall t x, ig_init ig t = Ok x -> forall ix, inb w ix -> (if ig_log ig then ln (x ix) else x ix) = v0 ix.
Variable outf : (list nat -> R) -> list nat -> R.
Hypothesis HO : forall t x y, ig_let ig t x = Ok y -> forall ix, inb out ix -> fin ig y ix = outf x ix.
Hypothesis HO2 : forall x x' ix, inb out ix -> (forall jx, inb w jx -> x jx = x' jx) -> outf x ix = outf x' ix.

Lemma fwalk_run pace_fn fuel g inf (timeline : list R) t0 gr :
  valid_timeline timeline -> nth_error timeline 0 = Some t0 ->
  (List.length timeline + List.length (pace_fn timeline) <= fuel)%nat ->
  grid_spec false timeline (pace_fn timeline) t0 gr ->
  exists s' xx,
    sde_call Rminus ig 0 pace_fn fuel (g, inf) [List.length timeline] timeline = Ok (s', xx) /\
    List.length xx = List.length timeline /\
    forall i ti, nth_error timeline i = Some ti ->
      exists n y, nth_error gr n = Some ti /\ nth_error xx i = Some (Some y) /\
        forall ix, inb out ix -> y ix = outf (fwalk inc Fs gr v0 n g) ix.
Proof.
  intros V0 N0 HF GR.
  assert (SI : start_index (List.length timeline) 0 0). { unfold start_index. destruct timeline; [discriminate|]. cbn. lia. }
  destruct (sde_call_total Rminus ig _ TI 0 pace_fn fuel (g, inf) timeline 0%nat Logic.I V0 SI HF) as ([wd' inf'] & xx & E).
  exists (wd', inf'), xx. split; auto.
  assert (RN := sde_call_run Rminus ig 0 pace_fn fuel g inf timeline 0%nat t0 wd' inf' xx V0 SI N0 HF E).
  split. { destruct RN as (? & ? & ? & ? & ? & _ & _ & _ & _ & _ & _ & LX & _). auto. }
  assert (I0 : In t0 timeline) by (eapply nth_error_In; eauto).
  assert (MIN : forall t, In t timeline -> t0 <= t).
  { intros t Ht. destruct timeline as [|a tl]; [easy|]. injection N0 as ->. destruct Ht as [->|Ht]; [lra|].
    destruct V0 as (_ & _ & SS). apply StronglySorted_inv in SS. destruct SS as [_ F]. rewrite Forall_forall in F.
    specialize (F t Ht). apply before_false in F. lra. }
  assert (ND : NoDup gr).
  { destruct GR as [S _]. apply sorted_before in S. clear - S. induction S as [|x l S IH F]; constructor; auto.
    intro H. rewrite Forall_forall in F. specialize (F x H). lra. }
  set (next := fun a c => exists n, nth_error gr n = Some a /\ nth_error gr (S n) = Some c).
  apply (run_link ig _ next) in RN.
  2: { intros rv g0 HG. destruct rv.
    - destruct HG as [S H]. destruct g0 as [|a g0]; [constructor|]. destruct g0 as [|c g0]; [repeat constructor|]. exfalso.
      assert (K : forall t, In t (a :: c :: g0) -> t = t0).
      { intros t Ht. apply InT_R in Ht. apply H in Ht. destruct Ht as [Q1 Q2].
        assert (t0 <= t).
        { destruct Q1 as [Q1|[_ (u & v & Hu & _ & L1 & _)]]; [apply MIN, InT_R; auto|].
          apply tleb_R in L1. apply InT_R in Hu. specialize (MIN u Hu). lra. }
        destruct Q2 as [Q2|Q2]; [apply teqb_R_true in Q2; auto|apply (before_R true) in Q2; simpl in Q2; lra]. }
      assert (a = t0) by (apply K; left; auto). assert (c = t0) by (apply K; right; left; auto). subst.
      apply StronglySorted_inv in S. destruct S as [_ F]. inversion F as [|? ? B]; subst. apply (before_R true) in B. simpl in B. lra.
    - rewrite (grid_same _ _ _ _ _ HG GR). unfold next. clear. 
      assert (K : forall suf pre, gr = pre ++ suf -> Sorted (fun a c => exists n, nth_error gr n = Some a /\ nth_error gr (S n) = Some c) suf).
      { induction suf as [|a suf IH]; intros pre EQ; constructor.
        - apply (IH (pre ++ [a])). rewrite <- app_assoc. auto.
        - destruct suf as [|c suf]; constructor. exists (List.length pre). rewrite EQ.
          rewrite !nth_error_app2 by lia. replace (List.length pre - List.length pre)%nat with 0%nat by lia.
          replace (S (List.length pre) - List.length pre)%nat with 1%nat by lia. auto. }
      apply (K gr []). auto. }
  set (vv := fun ix n => fwalk inc Fs gr v0 n g ix).
  set (P := fun (u : G) (t : R) (x : buf R) => exists n, nth_error gr n = Some t /\ u = gstate inc gr n g /\ forall ix, inb w ix -> x ix = vv ix n).
  destruct RN as (gb & gf & wd1 & yb & yf & GB & GF & PB & NB & PF & NF & LX & OF & OB).
  rewrite (NB (fun K => K eq_refl)) in PF. 
  assert (FO : goes_forth (List.length timeline) 0).
  { unfold goes_forth. destruct timeline; [easy|]. cbn [length]. lia. }
  rewrite (grid_same _ _ _ _ _ GF GR) in PF.
  destruct (PF FO) as (t & todo & x & l & EG & EI & C & F).
  assert (T0 : t = t0).
  { destruct (grid_head false timeline (pace_fn timeline) t0 gr) as (s & g' & EG' & Es); auto.
    - apply teqb_R_true; auto.
    - apply InT_R; auto.
    - rewrite EG in EG'. injection EG' as <- <-. apply teqb_R_true in Es. auto. }
  subst t.
  match type of C with chain ?st _ _ _ _ _ _ => destruct (chain_inv st P) with (wd := g) (t := t0) (x := if ig_log ig then fun ix : list nat => nlog (x ix) else x) (todo := todo) (wd' := wd') (l := l) as [CI _]; auto end.
  - intros u t x1 t' u' x' (n & Hn & -> & HV) [ST (n' & Hn' & HS')]. unfold next_step in ST.
    assert (n' = n).
    { rewrite NoDup_nth_error in ND. apply ND; [apply nth_error_Some; congruence|congruence]. }
    subst n'. destruct (HN _ _ _ _ _ _ ST) as [-> HV'].
    assert (Et : nth n gr 0 = t) by (apply nth_error_nth; auto). assert (Eg : gap gr n = t' - t) by (unfold gap; rewrite Et, (nth_error_nth _ _ 0 HS'); reflexivity).
    exists (S n). split; auto. split. { cbn [gstate]. rewrite Et, Eg. reflexivity. }
    intros ix HJ. rewrite HV' by exact HJ. unfold vv. cbn [fwalk]. unfold move. rewrite Et, Eg. apply FX; auto.
  - exists 0%nat. split; [rewrite EG; auto|]. split; auto. intros ix HX. unfold vv. cbn [fwalk]. rewrite <- (HI t0 x EI ix HX). destruct (ig_log ig); reflexivity.
  - intros i ti Ni. cbn [skipn] in F.
    destruct (Forall2_nth _ _ _ _ _ F Ni) as (y & Ny & t & x1 & u & Hin & Et & EL).
    apply teqb_R_true in Et. subst t. destruct (CI _ _ _ Hin) as (n & Hn & _ & HV).
    exists n, (fin ig y). split; auto. specialize (OF FO _ _ Ny). split; [exact OF|]. intros ix HX.
    rewrite (HO _ _ _ EL ix HX). apply HO2; auto.
Qed.
End Run.

Section Values.
Context {G I : Type}.
Variable ig : integ R R G I.
Variables (w out : list nat).
Hypothesis TI : total_integ ig (fun _ => True).
Variable inc : G -> R -> R -> G * (list nat -> R).
Variables (v0 : list nat -> R) (Fs : R -> R -> (list nat -> R) -> (list nat -> R) -> list nat -> R).
Hypothesis FX : forall t dt x x' z ix, inb w ix -> (forall jx, inb w jx -> x jx = x' jx) -> Fs t dt x z ix = Fs t dt x' z ix.
Hypothesis HN : forall u t t' x u' x', euler_next Rminus ig u t t' x = Ok (u', x') ->
  u' = fst (inc u t (t' - t)) /\ forall ix, inb w ix -> x' ix = Fs t (t' - t) x (snd (inc u t (t' - t))) ix.
Hypothesis HI : forall t x, ig_init ig t = Ok x -> forall ix, inb w ix -> (if ig_log ig then ln (x ix) else x ix) = v0 ix.
Variable outf : (list nat -> R) -> list nat -> R.
Hypothesis HO : forall t x y, ig_let ig t x = Ok y -> forall ix, inb out ix -> fin ig y ix = outf x ix.
Hypothesis HO2 : forall x x' ix, inb out ix -> (forall jx, inb w jx -> x jx = x' jx) -> outf x ix = outf x' ix.
Variables (pace_fn : list R -> list R) (fuel : nat) (inf : I) (timeline : list R) (t0 : R).
Hypothesis V0 : valid_timeline timeline.
Hypothesis N0 : nth_error timeline 0 = Some t0.
Hypothesis HF : (List.length timeline + List.length (pace_fn timeline) <= fuel)%nat.
Lemma frun :
  let run g := sde_call Rminus ig 0 pace_fn fuel (g, inf) [List.length timeline] timeline in
  let N := List.length timeline in
  (forall g, exists s' xx, run g = Ok (s', xx)) /\
  exists gr kk, on_times timeline (pace_fn timeline) t0 gr kk /\
    (List.length gr <= List.length timeline + List.length (pace_fn timeline))%nat /\
    forall g i ix, (i < N)%nat -> inb out ix -> value_at (run g) i ix = outf (fwalk inc Fs gr v0 (kk i) g) ix.
Proof.
  intros run N. destruct (grid_exists timeline (pace_fn timeline) t0) as (gr & GR).
  assert (RUN := fun g => fwalk_run ig w out TI inc v0 Fs FX HN HI outf HO HO2 pace_fn fuel g inf timeline t0 gr V0 N0 HF GR).
  split. { intro g. destruct (RUN g) as (s' & xx & E & _). exists s', xx. exact E. }
  assert (I0 : In t0 timeline) by (eapply nth_error_In; eauto).
  assert (SG : StronglySorted Rlt gr) by (destruct GR as [S _]; apply sorted_before; auto).
  assert (ND : NoDup gr).
  { clear - SG. induction SG as [|x l S IH F]; constructor; auto. intro H. rewrite Forall_forall in F. specialize (F x H). lra. }
  assert (INC : incl gr (timeline ++ pace_fn timeline)).
  { intros t Ht. apply InT_R in Ht. apply GR in Ht. apply in_or_app. destruct Ht as [[Ht|[Ht _]] _]; apply InT_R in Ht; auto. }
  assert (LG : (List.length gr <= List.length timeline + List.length (pace_fn timeline))%nat).
  { rewrite <- app_length. apply NoDup_incl_length; auto. }
  assert (ST : StronglySorted Rlt timeline).
  { destruct V0 as (_ & _ & SS). clear - SS. induction SS as [|x l S IH F]; constructor; auto. rewrite Forall_forall in *. intros y Hy. specialize (F y Hy). apply before_false in F. exact F. }
  assert (MX : exists B, forall t, In t timeline -> t0 <= t <= B).
  { assert (MIN : forall t, In t timeline -> t0 <= t).
    { intros t Ht. destruct timeline as [|a tl]; [easy|]. injection N0 as ->. destruct Ht as [->|Ht]; [lra|].
      apply StronglySorted_inv in ST. destruct ST as [_ F]. rewrite Forall_forall in F. specialize (F t Ht). lra. }
    assert (MX : forall l : list R, exists B, forall t, In t l -> t <= B).
    { induction l as [|y l (B & HB)]; [exists 0; easy|]. exists (Rmax y B). intros t [<-|Ht]; [apply Rmax_l|].
      apply Rle_trans with B; auto. apply Rmax_r. }
    destruct (MX timeline) as (B & HB). exists B. intros t Ht. auto. }
  destruct MX as (B0 & HB0).
  assert (IG : forall t, In t timeline -> In t gr).
  { intros t Ht. apply InT_R. apply GR. split; [left; apply InT_R; auto|]. destruct (HB0 t Ht) as [[Q|Q] _]; [right; apply before_false; auto|left; apply teqb_R_true; auto]. }
  assert (POS : forall n, (S n < List.length gr)%nat -> 0 < gap gr n).
  { intros n Hn. assert (Q := sorted_nth _ _ (sorted_lt _ SG) n Hn). unfold gap. lra. }
  set (kk := fun i => place gr (nth i timeline 0)).
  assert (KK : forall i, (i < N)%nat -> (kk i < List.length gr)%nat /\ nth (kk i) gr 0 = nth i timeline 0).
  { intros i Hi. apply place_nth. apply IG. apply nth_In. exact Hi. }
  exists gr, kk. split.
  { split; [split; [exact POS|]; split; [|split; [|exact KK]]|].
    - intros h n FI Hn. destruct (sorted_nth _ _ (grid_away h t0 B0 _ _ _ _ _ FI I0 HB0 GR) n Hn) as (_ & _ & Q2 & _). specialize (POS n Hn).
      unfold gap in *. rewrite Rabs_right in Q2 by lra. lra.
    - destruct (grid_head false timeline (pace_fn timeline) t0 gr) as (s & g' & EG' & Es); auto.
      + apply teqb_R_true; auto.
      + apply InT_R; auto.
      + rewrite EG'. apply teqb_R_true in Es. auto.
    - intros n Hn. assert (X := nth_In gr 0 Hn). apply InT_R in X. apply GR in X. destruct X as [[X|(_ & a & b0 & _ & X & _ & Y)] _].
      + apply InT_R in X. exists (nth n gr 0). split; [exact X|lra].
      + apply InT_R in X. exists b0. split; [exact X|]. apply tleb_R. exact Y. }
  split; [exact LG|]. intros g i ix Hi HX. destruct (RUN g) as (s' & xx & E & _ & H). destruct (nth_error timeline i) as [ti|] eqn:Ni; [|apply nth_error_None in Ni; unfold N in Hi; lia].
  destruct (H i ti Ni) as (n & y & Hn & Ny & Hy). specialize (Hy ix HX).
  assert (n = kk i). { rewrite NoDup_nth_error in ND. destruct (KK i Hi) as [K1 K2]. apply ND; [apply nth_error_Some; congruence|]. rewrite Hn. rewrite (nth_error_nth' gr 0) by auto. rewrite K2. f_equal. symmetry. apply nth_error_nth; auto. }
  subst n. unfold value_at, run. rewrite E, Ny, Hy. reflexivity.
Qed.
End Values.
