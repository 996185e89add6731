(** Lemmas on integrations with increments that do not depend on the values: the law of the values at the times of the
    timeline. *)
From Coq Require Import String List Arith Bool ZArith Reals Lra Lia Sorted.
From Coquelicot Require Import Coquelicot.
From Verif Require Import Base BaseOrd BaseNum BaseArr M_paths S_paths S_run L_ord L_paths8
  M_process M_source S_source M_sde S_sde L_sde L_sde2 L_sde3 M_presets S_presets L_presets M_integrate S_integrate P_source P_source4 S_true2 S_euler L_euler L_euler2
  BaseNd BaseIdx S_process L_nd P_source3 M_rv S_rv M_analytical S_analytical S_law P_chf L_law L_law2.
Import ListNotations.
Local Open Scope R_scope.

(** *** values along the grid *)
Section Walk.
Context {G : Type}.
Variables (inc : G -> R -> R -> G * (list nat -> R)) (gr : list R) (v0 : list nat -> R).
Fixpoint gstate (n : nat) (g : G) : G := match n with O => g | S n => fst (inc (gstate n g) (nth n gr 0) (gap gr n)) end.
Definition move (n : nat) (g : G) (ix : list nat) : R := snd (inc (gstate n g) (nth n gr 0) (gap gr n)) ix.
Fixpoint walk (n : nat) (g : G) (ix : list nat) : R := match n with O => v0 ix | S n => walk n g ix + move n g ix end.
End Walk.

Section Run.
Context {G I : Type}.
Variables (ids : list string) (src : string -> G -> R -> R -> res (G * arr R)) (vshape : list nat) (paths : nat).
Let w := (vshape ++ [paths])%list.
Variables (sde : R -> arr R -> dict (arr R) -> res (sdeval R)) (log gi : bool) (x0 : arr R) (args : dict (M_sde.param R R)).
Hypothesis HX : can (shp x0) w = true.
Let ig : integ R R G I := mk_sde ids src log sde gi vshape paths x0 args.
Hypothesis TI : total_integ ig (fun _ => True).
Variable inc : G -> R -> R -> G * (list nat -> R).
Hypothesis HN : forall u t t' x u' x', euler_next Rminus ig u t t' x = Ok (u', x') ->
  u' = fst (inc u t (t' - t)) /\ forall ix, inb w ix -> x' ix = x ix + snd (inc u t (t' - t)) ix.

Lemma walk_run pace_fn fuel g inf (timeline : list R) t0 gr :
  valid_timeline timeline -> nth_error timeline 0 = Some t0 ->
  (List.length timeline + List.length (pace_fn timeline) <= fuel)%nat ->
  grid_spec false timeline (pace_fn timeline) t0 gr ->
  exists s' xx,
    sde_call Rminus ig 0 pace_fn fuel (g, inf) [List.length timeline] timeline = Ok (s', xx) /\
    List.length xx = List.length timeline /\
    forall i ti, nth_error timeline i = Some ti ->
      exists n y, nth_error gr n = Some ti /\ nth_error xx i = Some (Some y) /\
        forall ix, inb w ix ->
          let v := walk inc gr (fun ix => if log then ln (bget x0 ix) else bget x0 ix) n g ix in
          y ix = if log then exp v else v.
Proof.
  intros V0 N0 HF GR.
  assert (SI : start_index (List.length timeline) 0 0). { unfold start_index. destruct timeline; [discriminate|]. cbn. lia. }
  destruct (sde_call_total Rminus ig _ TI 0 pace_fn fuel (g, inf) timeline 0%nat Logic.I V0 SI HF) as ([wd' inf'] & xx & E).
  exists (wd', inf'), xx. split; auto.
  assert (RN := sde_call_run Rminus ig 0 pace_fn fuel g inf timeline 0%nat t0 wd' inf' xx V0 SI N0 HF E).
  split. { destruct RN as (? & ? & ? & ? & ? & _ & _ & _ & _ & _ & _ & LX & _). auto. }
  assert (I0 : In t0 timeline) by (eapply nth_error_In; eauto).
  assert (MIN : forall t, In t timeline -> t0 <= t).
  { intros t Ht. destruct timeline as [|a tl]; [easy|]. injection N0 as ->. destruct Ht as [->|Ht]; [lra|].
    destruct V0 as (_ & _ & SS). apply StronglySorted_inv in SS. destruct SS as [_ F]. rewrite Forall_forall in F.
    specialize (F t Ht). apply before_false in F. lra. }
  assert (ND : NoDup gr).
  { destruct GR as [S _]. apply sorted_before in S. clear - S. induction S as [|x l S IH F]; constructor; auto.
    intro H. rewrite Forall_forall in F. specialize (F x H). lra. }
  set (next := fun a c => exists n, nth_error gr n = Some a /\ nth_error gr (S n) = Some c).
  apply (run_link ig _ next) in RN.
  2: { intros rv g0 HG. destruct rv.
    - destruct HG as [S H]. destruct g0 as [|a g0]; [constructor|]. destruct g0 as [|c g0]; [repeat constructor|]. exfalso.
      assert (K : forall t, In t (a :: c :: g0) -> t = t0).
      { intros t Ht. apply InT_R in Ht. apply H in Ht. destruct Ht as [Q1 Q2].
        assert (t0 <= t).
        { destruct Q1 as [Q1|[_ (u & v & Hu & _ & L1 & _)]]; [apply MIN, InT_R; auto|].
          apply tleb_R in L1. apply InT_R in Hu. specialize (MIN u Hu). lra. }
        destruct Q2 as [Q2|Q2]; [apply teqb_R_true in Q2; auto|apply (before_R true) in Q2; simpl in Q2; lra]. }
      assert (a = t0) by (apply K; left; auto). assert (c = t0) by (apply K; right; left; auto). subst.
      apply StronglySorted_inv in S. destruct S as [_ F]. inversion F as [|? ? B]; subst. apply (before_R true) in B. simpl in B. lra.
    - rewrite (grid_same _ _ _ _ _ HG GR). unfold next. clear. 
      assert (K : forall suf pre, gr = pre ++ suf -> Sorted (fun a c => exists n, nth_error gr n = Some a /\ nth_error gr (S n) = Some c) suf).
      { induction suf as [|a suf IH]; intros pre EQ; constructor.
        - apply (IH (pre ++ [a])). rewrite <- app_assoc. auto.
        - destruct suf as [|c suf]; constructor. exists (List.length pre). rewrite EQ.
          rewrite !nth_error_app2 by lia. replace (List.length pre - List.length pre)%nat with 0%nat by lia.
          replace (S (List.length pre) - List.length pre)%nat with 1%nat by lia. auto. }
      apply (K gr []). auto. }
  set (vv := fun ix n => walk inc gr (fun ix => if log then ln (bget x0 ix) else bget x0 ix) n g ix).
  set (P := fun (u : G) (t : R) (x : buf R) => exists n, nth_error gr n = Some t /\ u = gstate inc gr n g /\ forall ix, inb w ix -> x ix = vv ix n).
  destruct RN as (gb & gf & wd1 & yb & yf & GB & GF & PB & NB & PF & NF & LX & OF & OB).
  rewrite (NB (fun K => K eq_refl)) in PF. 
  assert (FO : goes_forth (List.length timeline) 0).
  { unfold goes_forth. destruct timeline; [easy|]. cbn [length]. lia. }
  rewrite (grid_same _ _ _ _ _ GF GR) in PF.
  destruct (PF FO) as (t & todo & x & l & EG & EI & C & F).
  assert (T0 : t = t0).
  { destruct (grid_head false timeline (pace_fn timeline) t0 gr) as (s & g' & EG' & Es); auto.
    - apply teqb_R_true; auto.
    - apply InT_R; auto.
    - rewrite EG in EG'. injection EG' as <- <-. apply teqb_R_true in Es. auto. }
  subst t.
  match type of C with chain ?st _ _ _ _ _ _ => destruct (chain_inv st P) with (wd := g) (t := t0) (x := if ig_log ig then fun ix : list nat => nlog (x ix) else x) (todo := todo) (wd' := wd') (l := l) as [CI _]; auto end.
  - intros u t x1 t' u' x' (n & Hn & -> & HV) [ST (n' & Hn' & HS')]. unfold next_step in ST.
    assert (n' = n).
    { rewrite NoDup_nth_error in ND. apply ND; [apply nth_error_Some; congruence|congruence]. }
    subst n'. destruct (HN _ _ _ _ _ _ ST) as [-> HV'].
    assert (Et : nth n gr 0 = t) by (apply nth_error_nth; auto). assert (Eg : gap gr n = t' - t) by (unfold gap; rewrite Et, (nth_error_nth _ _ 0 HS'); reflexivity).
    exists (S n). split; auto. split. { cbn [gstate]. rewrite Et, Eg. reflexivity. }
    intros ix HI. rewrite HV' by exact HI. rewrite HV by auto. unfold vv. cbn [walk]. unfold move. rewrite Et, Eg. reflexivity.
  - exists 0%nat. split; [rewrite EG; auto|]. split; auto. intros ix HI.
    simpl in EI. unfold sde_init in EI. fold w in EI. rewrite assign_can in EI by auto. injection EI as <-.
    unfold vv. cbn [walk]. unfold logi. cbn [ig_log ig mk_sde]. destruct log; reflexivity.
  - intros i ti Ni. cbn [skipn] in F.
    destruct (Forall2_nth _ _ _ _ _ F Ni) as (y & Ny & t & x1 & u & Hin & Et & EL).
    apply teqb_R_true in Et. subst t. destruct (CI _ _ _ Hin) as (n & Hn & _ & HV).
    exists n, (fin ig y). split; auto. specialize (OF FO _ _ Ny). split; [exact OF|]. intros ix HI v.
    simpl in EL. unfold sde_let in EL. rewrite assign_can in EL by apply can_refl. injection EL as <-.
    unfold fin. cbn [ig_log ig mk_sde]. fold w.
    assert (EV : bget (mkArr w x1) ix = v). { rewrite bget_self by auto. cbn [dat]. rewrite HV by auto. reflexivity. }
    destruct log; cbn [nexp Num_R]; rewrite EV; reflexivity.
Qed.
End Run.

(** *** the law of values along the grid *)
Lemma csum_zero {A} (l : list A) : csum (fun _ => 0%C) l = 0%C.
Proof. unfold csum. induction l as [|a l IH]; cbn [map fold_right]; auto. rewrite IH. ring. Qed.
Lemma csum_swap {A B} (f : A -> B -> C) l l' : csum (fun x => csum (f x) l') l = csum (fun y => csum (fun x => f x y) l) l'.
Proof.
  induction l as [|a l IH]; [symmetry; apply (csum_zero l')|].
  change (csum (fun x => csum (f x) l') (a :: l)) with (csum (f a) l' + csum (fun x => csum (f x) l') l)%C. rewrite IH, <- csum_plus. reflexivity.
Qed.
(** weights of the steps of the grid, from those of the timeline *)
Fixpoint weights (kk : nat -> nat) (theta : nat -> C) (M : nat) (m : nat) : C :=
  match M with O => 0%C | S M => if (m <? kk M)%nat then weights kk theta M m else theta M end.
Lemma weights_dom kk theta (Dm : C -> Prop) M m : Dm 0%C -> (forall i, Dm (theta i)) -> Dm (weights kk theta M m).
Proof. intros D0 H. induction M as [|M IH]; [exact D0|]. cbn [weights]. destruct (m <? kk M)%nat; auto. Qed.
Lemma telescope (c : C) (A : nat -> R) n : forall k, csum (fun m => c * RtoC (A (S m) - A m))%C (seq n k) = (c * RtoC (A (n + k)%nat - A n))%C.
Proof.
  intro k. revert n. induction k as [|k IH]; intro n.
  - cbn. replace (n + 0)%nat with n by lia. rewrite Rminus_eq_0. ring.
  - cbn [seq]. change (csum ?f (n :: seq (S n) k)) with (f n + csum f (seq (S n) k))%C. rewrite IH. replace (S n + k)%nat with (n + S k)%nat by lia. rewrite !RtoC_minus. ring.
Qed.
Lemma weights_sum kk theta (f : C -> C) (A : nat -> R) : kk 0%nat = 0%nat -> (forall i, (kk i <= kk (S i))%nat) -> forall M,
  csum (fun m => f (weights kk theta M m) * RtoC (A (S m) - A m))%C (seq 0 (kk M)) = csum (fun i => f (theta i) * RtoC (A (kk (S i)) - A (kk i)))%C (seq 0 M).
Proof.
  intros K0 K. induction M as [|M IH]; [rewrite K0; reflexivity|].
  replace (kk (S M)) with (kk M + (kk (S M) - kk M))%nat at 1 by (specialize (K M); lia). rewrite seq_app, csum_app, seq_S, csum_app. cbn [Nat.add]. f_equal.
  - rewrite <- IH. apply csum_ext. intros m Hm. apply in_seq in Hm. cbn [weights]. replace (m <? kk M)%nat with true by (symmetry; apply Nat.ltb_lt; lia). reflexivity.
  - rewrite (csum_ext _ (fun m => f (theta M) * RtoC (A (S m) - A m))%C), telescope.
    + cbn [Nat.add]. replace (kk M + (kk (S M) - kk M))%nat with (kk (S M)) by (specialize (K M); lia). unfold csum. cbn [map fold_right]. symmetry. apply Cplus_0_r.
    + intros m Hm. apply in_seq in Hm. cbn [weights]. replace (m <? kk M)%nat with false by (symmetry; apply Nat.ltb_ge; lia). reflexivity.
Qed.

Section Law.
Context {G : Type}.
Variable L : nat -> (G -> R) -> R.
Hypothesis HL : is_law L.
Variables (inc : G -> R -> R -> G * (list nat -> R)) (gr : list R) (v0 : list nat -> R) (w : list nat) (psi : list nat -> C -> C) (Dm : C -> Prop) (c : nat).
Hypothesis D0 : Dm 0%C.
Definition one_step (u : list nat -> C) (t dt : R) (Psi : G -> C) (g : G) : C :=
  (cexp (csum (fun ix => u ix * RtoC (snd (inc g t dt) ix)) (ndindex w)) * Psi (fst (inc g t dt)))%C.
Hypothesis STEP : forall n u D Psi z, (S n < List.length gr)%nat -> (forall ix, Dm (u ix)) -> em L D Psi z ->
  em L (c + D) (one_step u (nth n gr 0) (gap gr n) Psi) (cprod (fun ix => cexp (RtoC (gap gr n) * psi ix (u ix))%C) (ndindex w) * z)%C.

Fixpoint follow (eta : list nat -> nat -> C) (k n : nat) (g : G) : C :=
  match k with O => 1%C | S k => one_step (fun ix => eta ix n) (nth n gr 0) (gap gr n) (follow eta k (S n)) g end.
Lemma em_follow eta : (forall ix n, Dm (eta ix n)) -> forall k n, (n + k < List.length gr)%nat ->
  em L (c * k) (follow eta k n) (cprod (fun m => cprod (fun ix => cexp (RtoC (gap gr m) * psi ix (eta ix m))%C) (ndindex w)) (seq n k)).
Proof.
  intro HE. induction k as [|k IH]; intros n Hn.
  - cbn [follow seq]. apply em_one; auto.
  - cbn [follow seq]. replace (c * S k)%nat with (c + c * k)%nat by lia. 
    change (cprod ?f (n :: seq (S n) k)) with (f n * cprod f (seq (S n) k))%C. apply STEP; [lia|auto|]. apply IH. lia.
Qed.
Lemma follow_moves eta g : forall k n, follow eta k n (gstate inc gr n g) =
  cexp (csum (fun m => csum (fun ix => eta ix m * RtoC (move inc gr m g ix)) (ndindex w)) (seq n k))%C.
Proof.
  induction k as [|k IH]; intro n; cbn [follow seq].
  - symmetry. apply cexp_0.
  - unfold one_step. change (fst (inc (gstate inc gr n g) (nth n gr 0) (gap gr n))) with (gstate inc gr (S n) g). rewrite IH, <- cexp_add. reflexivity.
Qed.
Lemma law_walk kk M theta d k : kk 0%nat = 0%nat -> (forall i, (kk i <= kk (S i))%nat) -> (kk M < List.length gr)%nat -> (forall ix i, Dm (theta ix i)) -> (c * kk M <= d)%nat ->
  has_mean (L d) (fun g => k * cexp (csum (fun ix => csum (fun i => theta ix i * RtoC (walk inc gr v0 (kk (S i)) g ix - walk inc gr v0 (kk i) g ix))%C (seq 0 M)) (ndindex w)))%C
    (k * cprod (fun ix => cprod (fun i => cexp (RtoC (nth (kk (S i)) gr 0 - nth (kk i) gr 0) * psi ix (theta ix i))%C) (seq 0 M)) (ndindex w))%C.
Proof.
  intros K0 K KM HT Hd. set (eta := fun ix => weights kk (theta ix) M).
  assert (HE : forall ix n, Dm (eta ix n)) by (intros; apply weights_dom; auto).
  assert (X := em_follow eta HE (kk M) 0 ltac:(lia) d k Hd).
  replace (cprod (fun m => cprod (fun ix => cexp (RtoC (gap gr m) * psi ix (eta ix m))%C) (ndindex w)) (seq 0 (kk M))) with
    (cprod (fun ix => cprod (fun i => cexp (RtoC (nth (kk (S i)) gr 0 - nth (kk i) gr 0) * psi ix (theta ix i))%C) (seq 0 M)) (ndindex w)) in X.
  - eapply hm_ext; [exact HL| |exact X]. intro g. cbv beta. f_equal. refine (eq_trans (follow_moves eta g (kk M) 0) _). f_equal. rewrite csum_swap. apply csum_ext. intros ix _.
    unfold eta. rewrite <- (weights_sum kk (theta ix) (fun z => z) (fun n => walk inc gr v0 n g ix) K0 K M). apply csum_ext. intros m _. f_equal. f_equal. cbn [walk]. ring.
  - transitivity (cexp (csum (fun ix => csum (fun i => RtoC (nth (kk (S i)) gr 0 - nth (kk i) gr 0) * psi ix (theta ix i))%C (seq 0 M)) (ndindex w))).
    { rewrite cexp_csum. apply cprod_ext. intros ix _. symmetry. apply cexp_csum. }
    transitivity (cexp (csum (fun m => csum (fun ix => RtoC (gap gr m) * psi ix (eta ix m))%C (ndindex w)) (seq 0 (kk M)))).
    2: { rewrite cexp_csum. apply cprod_ext. intros m _. apply cexp_csum. }
    f_equal. rewrite (csum_swap _ (seq 0 (kk M)) (ndindex w)). apply csum_ext. intros ix _.
    transitivity (csum (fun i => psi ix (theta ix i) * RtoC (nth (kk (S i)) gr 0 - nth (kk i) gr 0))%C (seq 0 M)); [apply csum_ext; intros; ring|].
    rewrite <- (weights_sum kk (theta ix) (psi ix) (fun n => nth n gr 0) K0 K M). apply csum_ext. intros m _. unfold eta, gap. ring.
Qed.
End Law.
