(** Lemmas on simulations with floating point numbers. *)
From Coq Require Import String List Arith Bool ZArith Reals Lra Lia Sorting.Sorted.
From Flocq Require Import IEEE754.BinarySingleNaN Core.
From Verif Require Import Base BaseOrd BaseNum BaseArr BaseFloat M_float M_paths S_paths S_run L_ord L_paths8
  M_sde S_sde L_sde L_sde2 L_sde3 M_presets S_presets L_presets L_euler S_float L_float.
Import ListNotations.
Local Open Scope nat_scope.

(** *** number of points passed *)
Section Count.
Context {T : Type} {TO : TOrd T} {TL : TOrdLaws T}.
Variables (l : list T) (t0 : T).
Definition passed (t p : T) : bool := (tltb t0 p && tleb p t) || (tltb p t0 && tleb t p).
Definition cnt (t : T) : nat := length (filter (passed t) l).
Lemma cnt_le t : cnt t <= length l.
Proof using Type. unfold cnt. induction l as [|a l' IH]; simpl; auto. destruct (passed t a); simpl; lia. Qed.
Lemma filter_more {A} (f g : A -> bool) m s : (forall p, f p = true -> g p = true) -> In s m -> f s = false -> g s = true ->
  length (filter f m) < length (filter g m).
Proof using Type.
  intros H. assert (LE : forall m, length (filter f m) <= length (filter g m)).
  { induction m0 as [|a m0 IH]; simpl; auto. destruct (f a) eqn:E; [rewrite (H _ E); simpl; lia|]. destruct (g a); simpl; lia. }
  induction m as [|a m IH]; simpl; [tauto|]. intros [-> |I] F G.
  - rewrite F, G. simpl. specialize (LE m). lia.
  - specialize (IH I F G). destruct (f a) eqn:E; [rewrite (H _ E); simpl; lia|]. destruct (g a); simpl; lia.
Qed.
Lemma passed_iff rv t p : (teqb t0 t = true \/ before rv t0 t) ->
  (passed t p = true <-> before rv t0 p /\ (before rv p t \/ teqb p t = true)).
Proof using TL.
  intro H. unfold passed, tleb. rewrite orb_true_iff, !andb_true_iff, !orb_true_iff. destruct rv; simpl in *; split.
  - intros [[A B]|[A [B|B]]].
    + exfalso. assert (C : tltb p t0 = true \/ teqb p t0 = true).
      { destruct H as [H|H].
        - destruct B as [B|B]; [left; rewrite (tlt_eq_r _ _ p H); auto|right; eapply teq_trans; [exact B|apply teq_sym; auto]].
        - left. destruct B as [B|B]; [eapply tlt_trans; eauto|rewrite (tlt_eq_l _ _ t0 B); auto]. }
      destruct C as [C|C]; [pose proof (tlt_trans _ _ _ A C) as D; rewrite tlt_irrefl in D; [discriminate|apply (proj1 (tlt_num _ _ A))]|].
      rewrite tlt_irrefl in A; [discriminate|apply teq_sym; auto].
    + split; auto.
    + split; auto. right. apply teq_sym; auto.
  - intros [A [B|B]]; right; auto. split; auto. right. apply teq_sym; auto.
  - intros [[A [B|B]]|[A B]].
    + split; auto.
    + split; auto.
    + exfalso. assert (C : tltb t0 p = true \/ teqb t0 p = true).
      { destruct H as [H|H].
        - destruct B as [B|B]; [left; rewrite (tlt_eq_l _ _ p H); auto|right; eapply teq_trans; eauto].
        - left. destruct B as [B|B]; [eapply tlt_trans; eauto|rewrite <- (tlt_eq_r _ _ t0 B); auto]. }
      destruct C as [C|C]; [pose proof (tlt_trans _ _ _ A C) as D; rewrite tlt_irrefl in D; [discriminate|apply (proj1 (tlt_num _ _ A))]|].
      rewrite tlt_irrefl in A; [discriminate|apply teq_sym; auto].
  - intros [A [B|B]]; left; auto.
Qed.
Lemma cnt_step rv t t' : (teqb t0 t = true \/ before rv t0 t) -> before rv t t' -> InT t' l -> cnt t < cnt t'.
Proof using TL.
  intros H B (s & I & E). assert (H' : before rv t0 t').
  { destruct H as [H|H]; [apply (before_eq_l rv t0 t t' H); auto|eapply before_trans; eauto]. }
  unfold cnt. apply (filter_more _ _ l s); auto.
  - intro p. rewrite (passed_iff rv t p H), (passed_iff rv t' p (or_intror H')). intros [A [C|C]]; split; auto; left.
    + eapply before_trans; eauto.
    + apply (before_eq_l rv p t t' C). auto.
  - destruct (passed t s) eqn:P; auto. apply (passed_iff rv t s H) in P. destruct P as [_ [P|P]]; exfalso.
    + apply (before_asym rv t t' B). apply (before_eq_l rv t' s t E). auto.
    + apply (before_irrefl rv t t'); auto. apply teq_sym. eapply teq_trans; eauto.
  - apply (passed_iff rv t' s (or_intror H')). split; [apply (before_eq_r rv t' s t0 E); auto|]. right. apply teq_sym; auto.
Qed.
End Count.

Lemma grid_count {T} {TO : TOrd T} {TL : TOrdLaws T} rv (timeline pc : list T) t0 g : grid_spec rv timeline pc t0 g ->
  Sorted (fun t t' => cnt (timeline ++ pc) t0 t < cnt (timeline ++ pc) t0 t' /\ InT t (timeline ++ pc) /\ InT t' (timeline ++ pc)) g.
Proof.
  intros [SS HG]. apply (sorted_mid (before rv)); auto. intros pre a b post Eg Hab _.
  assert (NA : isnum a /\ isnum b) by (eapply before_num; eauto).
  assert (GI : forall t, isnum t -> In t g -> InT t (timeline ++ pc) /\ (teqb t0 t = true \/ before rv t0 t)).
  { intros t N Ht. apply (InT_In _ _ N) in Ht. apply HG in Ht. destruct Ht as [H1 H2]. split; auto. apply InT_app. tauto. }
  destruct (GI a) as [A1 A2]; [tauto|subst g; apply in_or_app; right; left; auto|].
  destruct (GI b) as [B1 B2]; [tauto|subst g; apply in_or_app; right; right; left; auto|].
  split; auto. eapply cnt_step; eauto.
Qed.

Lemma InT_finite (t : float64) l : InT t l -> (forall s, In s l -> is_finite s = true) -> is_finite t = true.
Proof.
  intros (s & I & E) H. apply H in I. destruct t as [?|[]| |], s as [?|[]| |]; simpl in *; try discriminate; auto.
Qed.
Lemma InT_B2R (t : float64) l : InT t l -> exists s, In s l /\ B2R s = B2R t.
Proof. intros (s & I & E). exists s. split; auto. apply Beqb_spec in E. unfold f_val in E. symmetry. tauto. Qed.

(** *** equations with constant coefficients a dt + b dw *)
Section Const.
Context {Wd I : Type}.
Variables (fexp flog : float64 -> float64).
Local Existing Instance Num_float64.
Let NV : Num float64 := Num_float64 fexp flog.
Existing Instance NV.
Variables (vshape : list nat) (paths : nat) (timeline pc : list float64)
  (dw : Wd -> float64 -> float64 -> res (Wd * arr float64)) (Adm : Wd -> Prop) (W : R -> list nat -> R) (delta : list nat -> R).
Let w := (vshape ++ [paths])%list.
Hypothesis HW : near_source w (timeline ++ pc) dw Adm W delta.
Variables (sde : float64 -> arr float64 -> dict (arr float64) -> res (sdeval float64)) (log gi : bool)
  (x0 a b : arr float64) (args : dict (param float64 float64)).
Hypothesis CX : can (shp x0) w = true.
Hypothesis CA : can (shp a) w = true.
Hypothesis CB : can (shp b) w = true.
Hypothesis HS : forall t x, sde t (mkArr w x) (map (fun '(k, z) => (k, peval t z)) args) =
       Ok (RDict [("dt"%string, a); ("dw"%string, b)]).
Let ig : integ float64 float64 Wd I := mk_sde dw_ids (dw_src dw) log sde gi vshape paths x0 args.

Definition first_value (ix : list nat) : float64 := if log then flog (bget x0 ix) else bget x0 ix.
Lemma const_float i0 pace_fn fuel wd inf p0 t0 : pace_fn timeline = pc -> Adm wd ->
  valid_timeline timeline -> start_index (length timeline) i0 p0 -> nth_error timeline p0 = Some t0 ->
  (length timeline + length pc <= fuel)%nat ->
  exists s' xx,
    sde_call f_sub ig i0 pace_fn fuel (wd, inf) [length timeline] timeline = Ok (s', xx) /\
    length xx = length timeline /\
    forall i ti, nth_error timeline i = Some ti ->
      exists y, nth_error xx i = Some (Some y) /\
        forall ix P, inb w ix -> (0 <= P)%R -> (0 <= delta ix)%R ->
          bounded_path (timeline ++ pc) (fun t => W t ix) (B2R (first_value ix)) (B2R (bget a ix)) (B2R (bget b ix)) (B2R t0) P ->
          (INR (length timeline + length pc) * uu <= /2)%R ->
          exists v, y ix = (if log then fexp v else v) /\
          (is_finite v = true ->
             Rabs (B2R v - wiener_path (fun t => W t ix) (B2R (first_value ix)) (B2R (bget a ix)) (B2R (bget b ix)) (B2R t0) (B2R ti))
             <= rounding_bound (length timeline + length pc) (B2R (bget a ix)) (B2R (bget b ix)) P (delta ix))%R /\
          (finite_source w dw Adm -> in_range (timeline ++ pc) (first_value ix) (bget a ix) (bget b ix) P (delta ix) -> is_finite v = true).
Proof.
  intros EP AD V0 SI N0 HF. rewrite <- EP in HF.
  assert (TI : total_integ ig Adm).
  { apply dw_total; auto. - intros t x. exists a, b. rewrite HS. auto.
    - intros u t dt Hu. destruct (HW u t dt Hu) as (u' & z & E & A' & C & _). eauto. }
  destruct (sde_call_total f_sub ig Adm TI i0 pace_fn fuel (wd, inf) timeline p0 AD V0 SI HF) as ([wd' inf'] & xx & E).
  exists (wd', inf'), xx. split; auto.
  pose proof (sde_call_run f_sub ig i0 pace_fn fuel wd inf timeline p0 t0 wd' inf' xx V0 SI N0 HF E) as RN.
  split. { destruct RN as (? & ? & ? & ? & ? & _ & _ & _ & _ & _ & _ & LL & _). auto. }
  rewrite EP in RN. apply (run_link _ _ (fun t t' => cnt (timeline ++ pc) t0 t < cnt (timeline ++ pc) t0 t' /\ InT t (timeline ++ pc) /\ InT t' (timeline ++ pc))) in RN;
    [|intros rv g; apply grid_count].
  set (c := fun ix P => (8 * uu * P + 2 * (Rabs (B2R (bget b ix)) * delta ix) + 8 * ((1 + Rabs (B2R (bget a ix))) * eta))%R).
  assert (C0 : forall ix P, (0 <= P)%R -> (0 <= delta ix)%R -> (0 <= c ix P)%R).
  { intros ix P HP HD. pose proof uu_pos. pose proof eta_pos. unfold c.
    assert (0 <= uu*P)%R by (apply Rmult_le_pos; lra).
    assert (0 <= Rabs (B2R (bget b ix)) * delta ix)%R by (apply Rmult_le_pos; [apply Rabs_pos|auto]).
    assert (0 <= (1 + Rabs (B2R (bget a ix))) * eta)%R by (apply Rmult_le_pos; [pose proof (Rabs_pos (B2R (bget a ix))); lra|lra]). lra. }
  set (PP := fun (u : Wd) (t : float64) (x : buf float64) => Adm u /\ (forall ix P, inb w ix -> (0 <= P)%R -> (0 <= delta ix)%R ->
     bounded_path (timeline ++ pc) (fun t => W t ix) (B2R (first_value ix)) (B2R (bget a ix)) (B2R (bget b ix)) (B2R t0) P ->
     is_finite (x ix) = true ->
     (Rabs (B2R (x ix) - wiener_path (fun t => W t ix) (B2R (first_value ix)) (B2R (bget a ix)) (B2R (bget b ix)) (B2R t0) (B2R t))
      <= err (c ix P) (cnt (timeline ++ pc) t0 t))%R) /\
     forall ix P, inb w ix -> (0 <= P)%R -> (0 <= delta ix)%R ->
     bounded_path (timeline ++ pc) (fun t => W t ix) (B2R (first_value ix)) (B2R (bget a ix)) (B2R (bget b ix)) (B2R t0) P ->
     (INR (length timeline + length pc) * uu <= /2)%R -> finite_source w dw Adm ->
     in_range (timeline ++ pc) (first_value ix) (bget a ix) (bget b ix) P (delta ix) -> is_finite (x ix) = true).
  destruct (run_inv ig (fun u t t' x u' x' => next_step f_sub ig u t t' x u' x' /\ (cnt (timeline ++ pc) t0 t < cnt (timeline ++ pc) t0 t' /\ InT t (timeline ++ pc) /\ InT t' (timeline ++ pc))) PP Adm timeline pc i0 p0 t0 wd wd' xx) as [OUT _]; auto.
  - intros u t x Hu Et EI. simpl in EI. unfold sde_init in EI. fold w in EI. rewrite assign_can in EI by auto. injection EI as <-.
    split; auto. split; intros ix P HI HP HD.
    2:{ intros _ _ _ (F & _). match goal with |- context[logi ?g ?f ix] => replace (logi g f ix) with (first_value ix) by (unfold logi, first_value; cbn [ig_log ig mk_sde]; destruct log; reflexivity) end. exact F. }
    intros _ _.
    assert (EB : B2R t = B2R t0). { apply Beqb_spec in Et. unfold f_val in Et. tauto. }
    match goal with |- context[logi ?g ?f ix] => replace (logi g f ix) with (first_value ix) by (unfold logi, first_value; cbn [ig_log ig mk_sde]; destruct log; reflexivity) end.
    rewrite EB. unfold wiener_path. replace (B2R (first_value ix) - _)%R with 0%R by ring. rewrite Rabs_R0.
    unfold err. apply Rmult_le_pos; [apply Rmult_le_pos; [apply pos_INR|auto]|apply pow_le]. pose proof uu_pos. lra.
  - intros u t x t' u' x' (Hu & HP & HQ) [ST (LT & I1 & I2)]. unfold next_step in ST.
    destruct (dw_next_ok f_sub ig dw a b u t t' x u' x' eq_refl eq_refl) as (z & EZ & HN); auto.
    { cbn [ig_A ig mk_sde]. unfold sde_A. cbn [ig_w ig mk_sde]. fold w. rewrite HS. cbn [rbind]. apply dw_check. }
    destruct (HW u t (f_sub t' t) Hu) as (u1 & z1 & EZ1 & Hu1 & _ & HZ). rewrite EZ1 in EZ. injection EZ as <- <-.
    split; auto. split.
    2:{ intros ix P HI P0 HD BP NN FS IR. specialize (HQ ix P HI P0 HD BP NN FS IR). specialize (HP ix P HI P0 HD BP HQ).
        destruct (InT_B2R _ _ I1) as (s & S1 & S2). destruct (InT_B2R _ _ I2) as (s' & S3 & S4).
        destruct (BP s s' S1 S3) as (B1 & B2 & B3). destruct (BP s' s S3 S1) as (_ & _ & B4). rewrite S2 in B1, B2, B3. rewrite S4 in B1, B2, B4.
        destruct IR as (G1 & G2 & G3 & G4 & G5 & G6 & G7). rewrite (HN ix HI). cbn [nadd nmul nzero NV Num_float64].
        assert (PE : wiener_path (fun t => W t ix) (B2R (first_value ix)) (B2R (bget a ix)) (B2R (bget b ix)) (B2R t0) (B2R t') =
          (wiener_path (fun t => W t ix) (B2R (first_value ix)) (B2R (bget a ix)) (B2R (bget b ix)) (B2R t0) (B2R t) +
           B2R (bget a ix) * (B2R t' - B2R t) + B2R (bget b ix) * (W (B2R t') ix - W (B2R t) ix))%R) by (unfold wiener_path; ring).
        rewrite PE in B4. pose proof (InT_finite t _ I1 G4) as FT. pose proof (InT_finite t' _ I2 G4) as FT'.
        apply (step_finite (x ix) (bget a ix) (bget b ix) (bget z1 ix) t t' _ (W (B2R t') ix - W (B2R t) ix)%R P (delta ix) _) with (8 := HD) (10 := HP); auto.
        - intro F. apply (FS u t (f_sub t' t) u1 z1 ix); auto.
        - eapply Rle_trans; [exact G7|]. apply bpow_le. lia.
        - eapply Rle_trans; [|apply (bound_range (bget a ix) (B2R (bget b ix)) P (delta ix) (length timeline + length pc)); auto].
          eapply Rle_trans; [apply (err_mono _ _ (length timeline + length pc))|].
          + apply C0; auto.
          + eapply Nat.le_trans; [apply cnt_le|]. rewrite app_length. lia.
          + unfold rounding_bound. apply err_bound; [apply (C0 ix P); auto|auto].
        - rewrite <- S2, <- S4. apply G5; auto.
        - intro FZ. specialize (HZ t' s s' ix eq_refl S1 S3 S2 S4 HI FZ). rewrite S2, S4 in HZ. exact HZ. }
    intros ix P HI P0 HD BP FI. rewrite (HN ix HI) in FI |- *. cbn [nadd nmul nzero NV Num_float64] in FI |- *.
    destruct (InT_B2R _ _ I1) as (s & S1 & S2). destruct (InT_B2R _ _ I2) as (s' & S3 & S4).
    destruct (BP s s' S1 S3) as (B1 & B2 & B3). destruct (BP s' s S3 S1) as (_ & _ & B4). rewrite S2 in B1, B2, B3. rewrite S4 in B1, B2, B4.
    assert (FX : is_finite (x ix) = true /\ is_finite (bget z1 ix) = true).
    { destruct (add_fin _ _ FI) as (F1 & F2 & _). destruct (add_fin _ _ F2) as (_ & F3 & _). destruct (mul_fin _ _ F3) as (_ & F4 & _). auto. }
    specialize (HP ix P HI P0 HD BP (proj1 FX)).
    specialize (HZ t' s s' ix eq_refl S1 S3 S2 S4 HI (proj2 FX)). rewrite S2, S4 in HZ.
    assert (PE : wiener_path (fun t => W t ix) (B2R (first_value ix)) (B2R (bget a ix)) (B2R (bget b ix)) (B2R t0) (B2R t') =
      (wiener_path (fun t => W t ix) (B2R (first_value ix)) (B2R (bget a ix)) (B2R (bget b ix)) (B2R t0) (B2R t) +
       B2R (bget a ix) * (B2R t' - B2R t) + B2R (bget b ix) * (W (B2R t') ix - W (B2R t) ix))%R) by (unfold wiener_path; ring).
    rewrite PE in B4 |- *. eapply Rle_trans; [apply (step_error (x ix) (bget a ix) (bget b ix) (bget z1 ix) t t' _ _ P (delta ix) _ FI P0 HD HP B1 B2 HZ B4)|].
    apply err_next; auto.
  - intros u t x [Hu _]; auto.
  - intros i ti Ni. destruct (OUT i ti Ni) as (t & x & u & y & Et & (_ & HP & HQ) & EL & EX).
    exists (fin ig y). split; auto. intros ix P HI P0 HD BP HN. exists (x ix). split.
    + simpl in EL. unfold sde_let in EL. rewrite assign_can in EL by apply can_refl. injection EL as <-.
      unfold fin. cbn [ig_log ig mk_sde].
      assert (EV : bget (mkArr w x) ix = x ix) by (rewrite bget_self by auto; reflexivity).
      fold w. destruct log; rewrite EV; reflexivity.
    + split; [|intros FS IR; apply (HQ ix P); auto]. intro FI. specialize (HP ix P HI P0 HD BP FI). assert (EB : B2R t = B2R ti). { apply Beqb_spec in Et. unfold f_val in Et. symmetry. tauto. }
      rewrite EB in HP. eapply Rle_trans; [exact HP|]. eapply Rle_trans; [apply (err_mono _ _ (length timeline + length pc))|].
      * apply C0; auto.
      * eapply Nat.le_trans; [apply cnt_le|]. rewrite app_length. lia.
      * unfold rounding_bound. apply err_bound; [apply (C0 ix P); auto|auto].
Qed.
End Const.
