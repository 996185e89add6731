(** Lemmas on integrations of linear equations with Gaussian increments: the values at the times of the timeline. *)
From Coq Require Import String List Arith Bool ZArith Reals Lra Lia Sorted.
From Coquelicot Require Import Coquelicot.
From Verif Require Import Base BaseOrd BaseNum BaseArr M_paths S_paths S_run L_ord L_paths8
  M_process M_source S_source M_sde S_sde L_sde L_sde2 L_sde3 M_presets S_presets L_presets M_integrate S_integrate P_source P_source4 S_true2 S_euler L_euler L_euler2
  BaseNd BaseIdx S_process L_nd P_source3 M_rv S_rv M_analytical S_analytical S_law P_chf L_law L_law2 L_law4 L_law5 S_gval L_gval.
Import ListNotations.
Local Open Scope R_scope.

(** *** values along the grid *)
Section Walk.
Context {G : Type}.
Variables (inc : G -> R -> R -> G * (list nat -> R)) (gr : list R) (v0 al ka b : list nat -> R).
Fixpoint awalk (n : nat) (g : G) (ix : list nat) : R :=
  match n with
  | O => v0 ix
  | S n => awalk n g ix + (al ix - ka ix * awalk n g ix) * gap gr n + b ix * move inc gr n g ix
  end.
(** the effect on the value at N of what happens at n *)
Fixpoint effect (k : R) (N n : nat) : R :=
  match N with O => 0 | S N => if Nat.eq_dec n N then 1 else (1 - k * gap gr N) * effect k N n end.
Lemma effect_after k N : forall n, (N <= n)%nat -> effect k N n = 0.
Proof. induction N as [|N IH]; intros n Hn; [reflexivity|]. cbn [effect]. destruct (Nat.eq_dec n N); [lia|]. rewrite IH by lia. ring. Qed.
Lemma rsum_seq_S (f : nat -> R) K : rsum f (seq 0 (S K)) = rsum f (seq 0 K) + f K.
Proof.
  rewrite seq_S. unfold rsum. rewrite map_app, fold_right_app. cbn [map fold_right Nat.add]. generalize (map f (seq 0 K)). intro l.
  rewrite Rplus_0_r. induction l as [|a l IH]; cbn [fold_right]; [ring|]. rewrite IH. ring.
Qed.
Lemma rsum_zero {A} (f : A -> R) l : (forall a, In a l -> f a = 0) -> rsum f l = 0.
Proof. intro H. unfold rsum. induction l as [|a l IH]; [reflexivity|]. cbn [map fold_right]. rewrite H by (left; auto). rewrite IH by (intros; apply H; right; auto). ring. Qed.
Lemma rsum_plus {A} (f h : A -> R) l : rsum (fun a => f a + h a) l = rsum f l + rsum h l.
Proof. unfold rsum. induction l as [|a l IH]; cbn [map fold_right]; [ring|]. rewrite IH. ring. Qed.
Lemma rsum_scal {A} (f : A -> R) k l : rsum (fun a => k * f a) l = k * rsum f l.
Proof. unfold rsum. induction l as [|a l IH]; cbn [map fold_right]; [ring|]. rewrite IH. ring. Qed.
Lemma awalk_sum g ix K : forall N, (N <= K)%nat ->
  awalk N g ix = mpath gr (al ix) (ka ix) (v0 ix) N + rsum (fun n => effect (ka ix) N n * b ix * move inc gr n g ix) (seq 0 K).
Proof.
  induction N as [|N IH]; intro HN.
  - cbn [awalk mpath]. rewrite rsum_zero; [ring|]. intros n _. cbn [effect]. ring.
  - cbn [awalk mpath]. rewrite IH by lia.
    assert (E : rsum (fun n => effect (ka ix) (S N) n * b ix * move inc gr n g ix) (seq 0 K) =
      (1 - ka ix * gap gr N) * rsum (fun n => effect (ka ix) N n * b ix * move inc gr n g ix) (seq 0 K) + b ix * move inc gr N g ix); [|rewrite E; ring].
    rewrite <- rsum_scal.
    transitivity (rsum (fun n => (1 - ka ix * gap gr N) * (effect (ka ix) N n * b ix * move inc gr n g ix) + (if Nat.eq_dec n N then b ix * move inc gr N g ix else 0)) (seq 0 K)).
    + apply rsum_ext. intros n _. cbn [effect]. destruct (Nat.eq_dec n N) as [->|NE]; [rewrite effect_after by lia; ring|ring].
    + rewrite rsum_plus. f_equal. clear IH. induction K as [|K IH]; [lia|]. rewrite rsum_seq_S. destruct (Nat.eq_dec K N) as [->|NE].
      * rewrite rsum_zero; [ring|]. intros n Hn. apply in_seq in Hn. destruct (Nat.eq_dec n N); [lia|reflexivity].
      * rewrite IH by lia. ring.
Qed.
End Walk.

(** *** the law of values along the grid *)
Section Noise.
Context {G : Type}.
Variable L : nat -> (G -> R) -> R.
Hypothesis HL : is_law L.
Variables (inc : G -> R -> R -> G * (list nat -> R)) (gr : list R) (w : list nat) (cw : list nat -> list nat -> R).
Hypothesis STEP : forall n u D Psi z, (S n < List.length gr)%nat -> em L D Psi z ->
  em L (S D) (one_step inc w u (nth n gr 0) (gap gr n) Psi) (cexp (RtoC (gap gr n / 2) * qsum cw (ndindex w) u)%C * z)%C.

Lemma em_noise (eta : list nat -> nat -> C) : forall k n, (n + k < List.length gr)%nat ->
  em L k (follow inc gr w eta k n) (cexp (csum (fun m => RtoC (gap gr m / 2) * qsum cw (ndindex w) (fun ix => eta ix m))%C (seq n k))).
Proof.
  induction k as [|k IH]; intros n Hn.
  - cbn [follow seq]. unfold csum. cbn [map fold_right]. rewrite cexp_0. apply em_one; auto.
  - cbn [follow seq]. change (csum ?f (n :: seq (S n) k)) with (f n + csum f (seq (S n) k))%C. rewrite cexp_add. apply STEP; [lia|]. apply IH. lia.
Qed.
Lemma noise_gaussian d K : (K < List.length gr)%nat -> (K <= d)%nat ->
  gaussian (L d) (entries K w) (fun g a => move inc gr (fst a) g (snd a)) (fun _ => 0)
    (fun a c => if Nat.eq_dec (fst a) (fst c) then gap gr (fst a) * cw (snd a) (snd c) else 0).
Proof.
  intros HK Hd theta k. assert (X := em_noise (fun ix n => theta (n, ix)) K 0 ltac:(lia) d k Hd).
  match goal with |- has_mean _ _ ?z => replace z with (k * cexp (csum (fun m => RtoC (gap gr m / 2) * qsum cw (ndindex w) (fun ix => theta (m, ix)))%C (seq 0 K)))%C end.
  - eapply hm_ext; [exact HL| |exact X]. intro g. cbv beta. f_equal. refine (eq_trans (follow_moves inc gr w _ g K 0) _). f_equal. unfold entries. rewrite csum_prod. reflexivity.
  - do 2 f_equal. rewrite (csum_ext (fun a => theta a * RtoC 0)%C (fun _ => 0%C)) by (intros; ring). rewrite csum_zero, Cplus_0_l.
    unfold qsum, entries. rewrite <- csum_scal, csum_prod. apply csum_ext. intros n Hn. rewrite <- csum_scal. apply csum_ext. intros ix _. rewrite csum_prod.
    rewrite (csum_ext _ (fun m => if Nat.eq_dec n m then csum (fun jx => RtoC (gap gr m * cw ix jx) * (theta (n, ix) * theta (m, jx)))%C (ndindex w) else 0%C)).
    + rewrite (csum_one Nat.eq_dec (fun m => csum (fun jx => RtoC (gap gr m * cw ix jx) * (theta (n, ix) * theta (m, jx)))%C (ndindex w)) n) by (auto; apply seq_NoDup).
      rewrite <- !csum_scal. apply csum_ext. intros jx _. unfold Rdiv. rewrite !RtoC_mult. ring.
    + intros m _. cbn [fst snd]. destruct (Nat.eq_dec n m) as [->|NE]; [reflexivity|]. transitivity (csum (fun _ : list nat => RtoC 0) (ndindex w)); [apply csum_ext; intros; ring|apply csum_zero].
Qed.

Variables (v0 al ka b : list nat -> R).
Definition acov (a c : nat * list nat) (K : nat) : R :=
  rsum (fun n => effect gr (ka (snd a)) (fst a) n * effect gr (ka (snd c)) (fst c) n * gap gr n) (seq 0 K) * (b (snd a) * b (snd c) * cw (snd a) (snd c)).
Lemma rsum_prod {A B} (f : A * B -> R) l l' : rsum f (list_prod l l') = rsum (fun a => rsum (fun c => f (a, c)) l') l.
Proof.
  induction l as [|a l IH]; [reflexivity|]. cbn [list_prod]. unfold rsum in *. rewrite map_app, fold_right_app, IH, map_map. cbn [map fold_right].
  match goal with |- fold_right Rplus ?z ?l = _ => generalize z; generalize l end. intros l0 z. induction l0 as [|x l0 IH0]; cbn [fold_right]; [ring|]. rewrite IH0. ring.
Qed.
Lemma rsum_one {A} (dec : forall x y : A, {x = y} + {x <> y}) (f : A -> R) a l : NoDup l -> In a l -> rsum (fun x => if dec a x then f x else 0) l = f a.
Proof.
  intros ND. induction ND as [|x l NI ND IH]; intro H; [easy|].
  change (rsum ?F (x :: l)) with (F x + rsum F l). cbv beta. destruct (dec a x) as [->|NE].
  - rewrite rsum_zero; [ring|]. intros y Hy. destruct (dec x y); [subst; contradiction|reflexivity].
  - destruct H as [H|H]; [congruence|]. rewrite IH by auto. ring.
Qed.
Lemma awalk_gaussian d K N kk : (K < List.length gr)%nat -> (K <= d)%nat -> (forall i, (i < N)%nat -> (kk i <= K)%nat) ->
  gaussian (L d) (entries N w) (fun g a => awalk inc gr v0 al ka b (kk (fst a)) g (snd a))
    (fun a => mpath gr (al (snd a)) (ka (snd a)) (v0 (snd a)) (kk (fst a)))
    (fun a c => acov (kk (fst a), snd a) (kk (fst c), snd c) K).
Proof.
  intros HK Hd HN. destruct HL as [HE _].
  eapply gaussian_ext; [apply HE|apply (gaussian_affine (L d) (HE d) (entries K w) (entries N w) _ _ _
    (fun a => mpath gr (al (snd a)) (ka (snd a)) (v0 (snd a)) (kk (fst a)))
    (fun a c => if list_eq_dec Nat.eq_dec (snd a) (snd c) then effect gr (ka (snd a)) (kk (fst a)) (fst c) * b (snd a) else 0) (noise_gaussian d K HK Hd))|..].
  - intros g [i ix] Ha. cbn [fst snd]. apply in_prod_iff in Ha. destruct Ha as [Hi Hix]. apply in_seq in Hi. rewrite (awalk_sum inc gr v0 al ka b g ix K) by (apply HN; lia). f_equal.
    unfold entries. rewrite rsum_prod. apply rsum_ext. intros n _. cbn [fst snd].
    rewrite (rsum_ext _ (fun jx => if list_eq_dec Nat.eq_dec ix jx then effect gr (ka ix) (kk i) n * b ix * move inc gr n g jx else 0)).
    + apply (rsum_one (list_eq_dec Nat.eq_dec) (fun jx => effect gr (ka ix) (kk i) n * b ix * move inc gr n g jx)); auto. apply NoDup_ndindex.
    + intros jx _. destruct (list_eq_dec Nat.eq_dec ix jx); ring.
  - intros a _. cbv beta. rewrite rsum_zero; [ring|]. intros c _. ring.
  - intros [i ix] [j jx] Ha Hc. cbn [fst snd]. apply in_prod_iff in Ha. destruct Ha as [Hi Hix]. apply in_prod_iff in Hc. destruct Hc as [Hj Hjx]. unfold acov. cbn [fst snd].
    unfold entries. rewrite rsum_prod, Rmult_comm, <- rsum_scal. apply rsum_ext. intros n Hn. cbn [fst snd].
    rewrite (rsum_ext _ (fun ix' => if list_eq_dec Nat.eq_dec ix ix' then effect gr (ka ix) (kk i) n * b ix * (effect gr (ka jx) (kk j) n * b jx) * (gap gr n * cw ix' jx) else 0)).
    { rewrite (rsum_one (list_eq_dec Nat.eq_dec) (fun ix' => effect gr (ka ix) (kk i) n * b ix * (effect gr (ka jx) (kk j) n * b jx) * (gap gr n * cw ix' jx))) by (auto; apply NoDup_ndindex). ring. }
    intros ix' Hix'. rewrite rsum_prod. destruct (list_eq_dec Nat.eq_dec ix ix') as [->|NE].
    + cbn [fst snd]. rewrite (rsum_ext _ (fun m => if Nat.eq_dec n m then effect gr (ka ix') (kk i) n * b ix' * (effect gr (ka jx) (kk j) m * b jx) * (gap gr n * cw ix' jx) else 0)).
      * apply (rsum_one Nat.eq_dec (fun m => effect gr (ka ix') (kk i) n * b ix' * (effect gr (ka jx) (kk j) m * b jx) * (gap gr n * cw ix' jx))); auto. apply seq_NoDup.
      * intros m Hm. cbn [fst snd]. destruct (Nat.eq_dec n m) as [->|NE]; [|apply rsum_zero; intros; ring].
        rewrite (rsum_ext _ (fun jx' => if list_eq_dec Nat.eq_dec jx jx' then effect gr (ka ix') (kk i) m * b ix' * (effect gr (ka jx) (kk j) m * b jx) * (gap gr m * cw ix' jx') else 0)).
        { apply (rsum_one (list_eq_dec Nat.eq_dec) (fun jx' => effect gr (ka ix') (kk i) m * b ix' * (effect gr (ka jx) (kk j) m * b jx) * (gap gr m * cw ix' jx'))); auto. apply NoDup_ndindex. }
        intros jx' _. destruct (list_eq_dec Nat.eq_dec jx jx'); ring.
    + apply rsum_zero. intros m _. apply rsum_zero. intros. cbn [fst snd]. ring.
Qed.
End Noise.

(** *** runs *)
Section Run.
Context {G I : Type}.
Variable ig : integ R R G I.
Variables (w out : list nat).
Hypothesis TI : total_integ ig (fun _ => True).
Variable inc : G -> R -> R -> G * (list nat -> R).
Variables (v0 al ka b : list nat -> R).
Hypothesis HN : forall u t t' x u' x', euler_next Rminus ig u t t' x = Ok (u', x') ->
  u' = fst (inc u t (t' - t)) /\ forall ix, inb w ix -> x' ix = x ix + (al ix - ka ix * x ix) * (t' - t) + b ix * snd (inc u t (t' - t)) ix.
Hypothesis HI : forall t x, ig_init ig t = Ok x -> forall ix, inb w ix -> (if ig_log ig then ln (x ix) else x ix) = v0 ix.
Variable outf : (list nat -> R) -> list nat -> R.
Hypothesis HO : forall t x y, ig_let ig t x = Ok y -> forall ix, inb out ix -> fin ig y ix = outf x ix.
Hypothesis HO2 : forall x x' ix, inb out ix -> (forall jx, inb w jx -> x jx = x' jx) -> outf x ix = outf x' ix.

Lemma awalk_run pace_fn fuel g inf (timeline : list R) t0 gr :
  valid_timeline timeline -> nth_error timeline 0 = Some t0 ->
  (List.length timeline + List.length (pace_fn timeline) <= fuel)%nat ->
  grid_spec false timeline (pace_fn timeline) t0 gr ->
  exists s' xx,
    sde_call Rminus ig 0 pace_fn fuel (g, inf) [List.length timeline] timeline = Ok (s', xx) /\
    List.length xx = List.length timeline /\
    forall i ti, nth_error timeline i = Some ti ->
      exists n y, nth_error gr n = Some ti /\ nth_error xx i = Some (Some y) /\
        forall ix, inb out ix -> y ix = outf (awalk inc gr v0 al ka b n g) ix.
Proof.
  intros V0 N0 HF GR.
  assert (SI : start_index (List.length timeline) 0 0). { unfold start_index. destruct timeline; [discriminate|]. cbn. lia. }
  destruct (sde_call_total Rminus ig _ TI 0 pace_fn fuel (g, inf) timeline 0%nat Logic.I V0 SI HF) as ([wd' inf'] & xx & E).
  exists (wd', inf'), xx. split; auto.
  assert (RN := sde_call_run Rminus ig 0 pace_fn fuel g inf timeline 0%nat t0 wd' inf' xx V0 SI N0 HF E).
  split. { destruct RN as (? & ? & ? & ? & ? & _ & _ & _ & _ & _ & _ & LX & _). auto. }
  assert (I0 : In t0 timeline) by (eapply nth_error_In; eauto).
  assert (MIN : forall t, In t timeline -> t0 <= t).
  { intros t Ht. destruct timeline as [|a tl]; [easy|]. injection N0 as ->. destruct Ht as [->|Ht]; [lra|].
    destruct V0 as (_ & _ & SS). apply StronglySorted_inv in SS. destruct SS as [_ F]. rewrite Forall_forall in F.
    specialize (F t Ht). apply before_false in F. lra. }
  assert (ND : NoDup gr).
  { destruct GR as [S _]. apply sorted_before in S. clear - S. induction S as [|x l S IH F]; constructor; auto.
    intro H. rewrite Forall_forall in F. specialize (F x H). lra. }
  set (next := fun a c => exists n, nth_error gr n = Some a /\ nth_error gr (S n) = Some c).
  apply (run_link ig _ next) in RN.
  2: { intros rv g0 HG. destruct rv.
    - destruct HG as [S H]. destruct g0 as [|a g0]; [constructor|]. destruct g0 as [|c g0]; [repeat constructor|]. exfalso.
      assert (K : forall t, In t (a :: c :: g0) -> t = t0).
      { intros t Ht. apply InT_R in Ht. apply H in Ht. destruct Ht as [Q1 Q2].
        assert (t0 <= t).
        { destruct Q1 as [Q1|[_ (u & v & Hu & _ & L1 & _)]]; [apply MIN, InT_R; auto|].
          apply tleb_R in L1. apply InT_R in Hu. specialize (MIN u Hu). lra. }
        destruct Q2 as [Q2|Q2]; [apply teqb_R_true in Q2; auto|apply (before_R true) in Q2; simpl in Q2; lra]. }
      assert (a = t0) by (apply K; left; auto). assert (c = t0) by (apply K; right; left; auto). subst.
      apply StronglySorted_inv in S. destruct S as [_ F]. inversion F as [|? ? B]; subst. apply (before_R true) in B. simpl in B. lra.
    - rewrite (grid_same _ _ _ _ _ HG GR). unfold next. clear. 
      assert (K : forall suf pre, gr = pre ++ suf -> Sorted (fun a c => exists n, nth_error gr n = Some a /\ nth_error gr (S n) = Some c) suf).
      { induction suf as [|a suf IH]; intros pre EQ; constructor.
        - apply (IH (pre ++ [a])). rewrite <- app_assoc. auto.
        - destruct suf as [|c suf]; constructor. exists (List.length pre). rewrite EQ.
          rewrite !nth_error_app2 by lia. replace (List.length pre - List.length pre)%nat with 0%nat by lia.
          replace (S (List.length pre) - List.length pre)%nat with 1%nat by lia. auto. }
      apply (K gr []). auto. }
  set (vv := fun ix n => awalk inc gr v0 al ka b n g ix).
  set (P := fun (u : G) (t : R) (x : buf R) => exists n, nth_error gr n = Some t /\ u = gstate inc gr n g /\ forall ix, inb w ix -> x ix = vv ix n).
  destruct RN as (gb & gf & wd1 & yb & yf & GB & GF & PB & NB & PF & NF & LX & OF & OB).
  rewrite (NB (fun K => K eq_refl)) in PF. 
  assert (FO : goes_forth (List.length timeline) 0).
  { unfold goes_forth. destruct timeline; [easy|]. cbn [length]. lia. }
  rewrite (grid_same _ _ _ _ _ GF GR) in PF.
  destruct (PF FO) as (t & todo & x & l & EG & EI & C & F).
  assert (T0 : t = t0).
  { destruct (grid_head false timeline (pace_fn timeline) t0 gr) as (s & g' & EG' & Es); auto.
    - apply teqb_R_true; auto.
    - apply InT_R; auto.
    - rewrite EG in EG'. injection EG' as <- <-. apply teqb_R_true in Es. auto. }
  subst t.
  match type of C with chain ?st _ _ _ _ _ _ => destruct (chain_inv st P) with (wd := g) (t := t0) (x := if ig_log ig then fun ix : list nat => nlog (x ix) else x) (todo := todo) (wd' := wd') (l := l) as [CI _]; auto end.
  - intros u t x1 t' u' x' (n & Hn & -> & HV) [ST (n' & Hn' & HS')]. unfold next_step in ST.
    assert (n' = n).
    { rewrite NoDup_nth_error in ND. apply ND; [apply nth_error_Some; congruence|congruence]. }
    subst n'. destruct (HN _ _ _ _ _ _ ST) as [-> HV'].
    assert (Et : nth n gr 0 = t) by (apply nth_error_nth; auto). assert (Eg : gap gr n = t' - t) by (unfold gap; rewrite Et, (nth_error_nth _ _ 0 HS'); reflexivity).
    exists (S n). split; auto. split. { cbn [gstate]. rewrite Et, Eg. reflexivity. }
    intros ix HJ. rewrite HV' by exact HJ. rewrite HV by auto. unfold vv. cbn [awalk]. unfold move. rewrite Et, Eg. reflexivity.
  - exists 0%nat. split; [rewrite EG; auto|]. split; auto. intros ix HX. unfold vv. cbn [awalk]. rewrite <- (HI t0 x EI ix HX). destruct (ig_log ig); reflexivity.
  - intros i ti Ni. cbn [skipn] in F.
    destruct (Forall2_nth _ _ _ _ _ F Ni) as (y & Ny & t & x1 & u & Hin & Et & EL).
    apply teqb_R_true in Et. subst t. destruct (CI _ _ _ Hin) as (n & Hn & _ & HV).
    exists n, (fin ig y). split; auto. specialize (OF FO _ _ Ny). split; [exact OF|]. intros ix HX.
    rewrite (HO _ _ _ EL ix HX). apply HO2; auto.
Qed.
End Run.
