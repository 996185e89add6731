(** Lemmas on integrations with increments that do not depend on the values, continued. *)
From Coq Require Import String List Arith Bool ZArith Reals Lra Lia Sorted.
From Coquelicot Require Import Coquelicot.
From Verif Require Import Base BaseOrd BaseNum BaseArr M_paths S_paths S_run L_ord L_paths8
  M_process M_source S_source M_sde S_sde L_sde L_sde2 L_sde3 M_presets S_presets L_presets M_integrate S_integrate P_source P_source4 S_true2 S_euler L_euler L_euler2
  BaseNd BaseIdx S_process L_nd P_source3 M_rv S_rv M_analytical S_analytical S_law P_chf L_law L_law2 L_law3 L_law4.
Import ListNotations.
Local Open Scope R_scope.

(** *** the places of the points of the timeline in the grid *)
Fixpoint place (l : list R) (t : R) : nat := match l with [] => 0%nat | x :: l => if Req_EM_T x t then 0%nat else S (place l t) end.
Lemma place_nth l : forall t, In t l -> (place l t < List.length l)%nat /\ nth (place l t) l 0 = t.
Proof.
  induction l as [|x l IH]; intros t H; [easy|]. cbn [place]. destruct (Req_EM_T x t) as [E|E]; [cbn; split; [lia|auto]|].
  destruct H as [H|H]; [contradiction|]. destruct (IH t H) as [A B]. cbn. split; [lia|auto].
Qed.
Lemma sorted_index l : StronglySorted Rlt l -> forall n m, (n < m)%nat -> (m < List.length l)%nat -> nth n l 0 < nth m l 0.
Proof.
  induction 1 as [|x l S IH F]; intros n m H1 H2; [cbn in H2; lia|]. destruct m as [|m]; [lia|]. cbn [List.length] in H2. destruct n as [|n]; cbn [nth].
  - rewrite Forall_forall in F. apply F. apply nth_In. lia.
  - apply IH; lia.
Qed.
Lemma place_le l t t' : StronglySorted Rlt l -> In t l -> In t' l -> t <= t' -> (place l t <= place l t')%nat.
Proof.
  intros S H H' LE. destruct (place_nth _ _ H) as [A1 A2], (place_nth _ _ H') as [B1 B2]. destruct (le_lt_dec (place l t) (place l t')) as [|K]; auto.
  assert (Q := sorted_index l S _ _ K A1). lra.
Qed.

Section Values.
Context {G I : Type}.
Variable L : nat -> (G -> R) -> R.
Hypothesis HL : is_law L.
Variables (ids : list string) (src : string -> G -> R -> R -> res (G * arr R)) (vshape : list nat) (paths : nat).
Let w := (vshape ++ [paths])%list.
Variables (sde : R -> arr R -> dict (arr R) -> res (sdeval R)) (log gi : bool) (x0 : arr R) (args : dict (M_sde.param R R)).
Hypothesis HX : can (shp x0) w = true.
Let ig : integ R R G I := mk_sde ids src log sde gi vshape paths x0 args.
Hypothesis TI : total_integ ig (fun _ => True).
Variable inc : G -> R -> R -> G * (list nat -> R).
Hypothesis HN : forall u t t' x u' x', euler_next Rminus ig u t t' x = Ok (u', x') ->
  u' = fst (inc u t (t' - t)) /\ forall ix, inb w ix -> x' ix = x ix + snd (inc u t (t' - t)) ix.
Variables (psi : list nat -> C -> C) (Dm : C -> Prop) (c : nat).
Hypothesis D0 : Dm 0%C.
Variables (pace_fn : list R -> list R) (fuel : nat) (inf : I) (timeline : list R) (t0 : R).
Hypothesis V0 : valid_timeline timeline.
Hypothesis N0 : nth_error timeline 0 = Some t0.
Hypothesis HF : (List.length timeline + List.length (pace_fn timeline) <= fuel)%nat.
Hypothesis STEP : forall a b u D Psi z, In a (timeline ++ pace_fn timeline)%list -> In b (timeline ++ pace_fn timeline)%list -> a < b -> (forall ix, Dm (u ix)) -> em L D Psi z ->
  em L (c + D) (one_step inc w u a (b - a) Psi) (cprod (fun ix => cexp (RtoC (b - a) * psi ix (u ix))%C) (ndindex w) * z)%C.

Lemma levy_run d : (c * (List.length timeline + List.length (pace_fn timeline)) <= d)%nat ->
  let run g := sde_call Rminus ig 0 pace_fn fuel (g, inf) [List.length timeline] timeline in
  (forall g, exists s' xx, run g = Ok (s', xx)) /\
  (log = true -> forall g i ix, (i < List.length timeline)%nat -> inb w ix -> 0 < value_at (run g) i ix) /\
  levy_values (L d) w psi Dm (fun ix => if log then ln (bget x0 ix) else bget x0 ix) timeline
    (fun g i ix => if log then ln (value_at (run g) i ix) else value_at (run g) i ix).
Proof.
  intros Hd run. destruct (grid_exists timeline (pace_fn timeline) t0) as (gr & GR).
  assert (RUN := fun g => walk_run ids src vshape paths sde log gi x0 args HX TI inc HN pace_fn fuel g inf timeline t0 gr V0 N0 HF GR).
  split. { intro g. destruct (RUN g) as (s' & xx & E & _). exists s', xx. exact E. }
  split. { intros EL g i ix Hi HI. destruct (RUN g) as (s' & xx & E & _ & H). destruct (nth_error timeline i) as [ti|] eqn:Ni; [|apply nth_error_None in Ni; lia].
    destruct (H i ti Ni) as (n & y & _ & Ny & Hy). unfold value_at, run, ig. rewrite E, Ny, Hy by auto. rewrite EL. apply exp_pos. }
  assert (I0 : In t0 timeline) by (eapply nth_error_In; eauto).
  assert (SG : StronglySorted Rlt gr) by (destruct GR as [S _]; apply sorted_before; auto).
  assert (ND : NoDup gr).
  { clear - SG. induction SG as [|x l S IH F]; constructor; auto. intro H. rewrite Forall_forall in F. specialize (F x H). lra. }
  assert (INC : incl gr (timeline ++ pace_fn timeline)).
  { intros t Ht. apply InT_R in Ht. apply GR in Ht. apply in_or_app. destruct Ht as [[Ht|[Ht _]] _]; apply InT_R in Ht; auto. }
  assert (LG : (List.length gr <= List.length timeline + List.length (pace_fn timeline))%nat) by (rewrite <- app_length; apply NoDup_incl_length; auto).
  assert (ST : StronglySorted Rlt timeline).
  { destruct V0 as (_ & _ & SS). clear - SS. induction SS as [|x l S IH F]; constructor; auto. rewrite Forall_forall in *. intros y Hy. apply before_false. apply F; auto. }
  assert (MIN : forall t, In t timeline -> t0 <= t).
  { intros t Ht. destruct timeline as [|a tl]; [easy|]. injection N0 as ->. destruct Ht as [->|Ht]; [lra|].
    apply StronglySorted_inv in ST. destruct ST as [_ F]. rewrite Forall_forall in F. specialize (F t Ht). lra. }
  assert (IG : forall t, In t timeline -> In t gr).
  { intros t Ht. apply InT_R. apply GR. split; [left; apply InT_R; auto|].
    destruct (MIN t Ht) as [Q|Q]; [right; apply before_false; auto|left; apply teqb_R_true; auto]. }
  assert (G0 : nth 0 gr 0 = t0).
  { destruct (grid_head false timeline (pace_fn timeline) t0 gr) as (s & g' & EG' & Es); auto.
    - apply teqb_R_true; auto.
    - apply InT_R; auto.
    - rewrite EG'. apply teqb_R_true in Es. auto. }
  set (M := (List.length timeline - 1)%nat).
  assert (LT : List.length timeline = S M) by (unfold M; destruct timeline; [easy|]; cbn [List.length]; lia).
  set (kk := fun i => place gr (nth (Nat.min i M) timeline 0)).
  assert (KI : forall i, In (nth (Nat.min i M) timeline 0) gr) by (intro i; apply IG, nth_In; lia).
  assert (T0 : nth 0 timeline 0 = t0) by (apply nth_error_nth; auto).
  assert (K0 : kk 0%nat = 0%nat).
  { unfold kk. cbn [Nat.min]. rewrite T0. destruct gr as [|x gr0]; [destruct (IG t0 I0)|]. cbn [nth] in G0. subst x. cbn [place]. destruct (Req_EM_T t0 t0); [auto|contradiction]. }
  assert (K : forall i, (kk i <= kk (S i))%nat).
  { intro i. unfold kk. apply place_le; auto. destruct (le_lt_dec M i) as [Q|Q].
    - rewrite !Nat.min_r by lia. lra.
    - rewrite !Nat.min_l by lia. apply Rlt_le. apply sorted_index; auto. lia. }
  assert (KV : forall i, (i <= M)%nat -> nth (kk i) gr 0 = nth i timeline 0).
  { intros i Hi. unfold kk. rewrite (proj2 (place_nth gr _ (KI i))). rewrite Nat.min_l by lia. reflexivity. }
  assert (KM : forall i, (kk i < List.length gr)%nat) by (intro i; apply (place_nth gr _ (KI i))).
  set (v0 := fun ix => if log then ln (bget x0 ix) else bget x0 ix).
  assert (EV : forall g i ix, (i <= M)%nat -> inb w ix -> (if log then ln (value_at (run g) i ix) else value_at (run g) i ix) = walk inc gr v0 (kk i) g ix).
  { intros g i ix Hi HI. destruct (RUN g) as (s' & xx & E & _ & H). destruct (nth_error timeline i) as [ti|] eqn:Ni; [|apply nth_error_None in Ni; lia].
    destruct (H i ti Ni) as (n & y & Hn & Ny & Hy). specialize (Hy ix HI). cbv zeta in Hy. fold v0 in Hy.
    assert (n = kk i). { rewrite NoDup_nth_error in ND. apply ND; [apply nth_error_Some; congruence|]. rewrite Hn. rewrite (nth_error_nth' gr 0) by auto. rewrite KV by auto. f_equal. symmetry. apply nth_error_nth; auto. }
    subst n. unfold value_at, run, ig. rewrite E, Ny, Hy. destruct log; rewrite ?ln_exp; reflexivity. }
  split.
  - intros g ix HI. rewrite EV by (auto; lia). rewrite K0. reflexivity.
  - intros theta k HT. cbv zeta. fold M.
    assert (X := law_walk L HL inc gr v0 w psi Dm c D0).
    assert (Y := X ltac:(intros n u D Psi z Hn HU HP; unfold gap; apply STEP; auto; [apply INC, nth_In; lia|apply INC, nth_In; lia|apply sorted_index; auto]) kk M theta d k K0 K (KM M) HT). clear X.
    destruct Y as [Y1 Y2]. { specialize (KM M). nia. }
    replace (cprod _ (ndindex w)) with (cprod (fun ix => cprod (fun i => cexp (RtoC (nth (kk (S i)) gr 0 - nth (kk i) gr 0) * psi ix (theta ix i))%C) (seq 0 M)) (ndindex w)).
    2: { apply cprod_ext. intros ix _. apply cprod_ext. intros i Hi. apply in_seq in Hi. rewrite !KV by lia. reflexivity. }
    eapply hm_ext; [exact HL| |split; [exact Y1|exact Y2]]. intro g. cbv beta. f_equal. f_equal. apply csum_ext. intros ix Hix. apply in_ndindex in Hix. apply csum_ext. intros i Hi. apply in_seq in Hi. rewrite !EV by (auto; lia). reflexivity.
Qed.
End Values.
