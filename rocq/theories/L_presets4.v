(** Lemmas on the Hull-White process: sum of Ornstein-Uhlenbeck factors. *)
From Coq Require Import String List Arith Bool ZArith Reals Lra Lia.
From Verif Require Import Base BaseOrd BaseNum BaseArr M_paths S_paths S_run L_ord L_paths8
  M_sde S_sde S_sdes L_sde L_sde2 L_sde3 L_sde4 L_pack L_sim M_presets S_presets L_presets L_presets2.
Import ListNotations.

Section HW.
Context {T : Type} {TO : TOrd T} {TL : TOrdLaws T} {V : Type} {NV : Num V} {Wd I : Type}.
Variable tsub : T -> T -> V.
Variables (dw : Wd -> T -> V -> res (Wd * arr V)) (gi : bool) (vshape : list nat) (F paths : nat)
  (x0 : arr V) (args : dict (param T V)).
Let vp := vshape ++ [paths].
Let w := vshape ++ [F; paths].
Notation hw := (hull_white_process (I := I) dw gi vshape F paths x0 args).

(** the same process storing all factors *)
Definition hw_full : integ T V Wd I :=
  mkInteg dw_ids (dw_src dw) (sde_A dw_ids args ou_sde) w (sde_init w x0) false (sde_let w w) gi
          no_info_begin no_info_next no_info_store no_info_end.

Lemma w_ins2 f ix : f < F -> inb vp ix -> inb w (ins2 f ix).
Proof.
  intros Hf HI. apply inb_snoc in HI. destruct HI as (a & b & -> & HA & HB). rewrite ins2_snoc.
  apply inb_snoc2. exists a, f, b. auto.
Qed.

Definition RYw (y1 y2 : buf V) : Prop :=
  forall ix, inb vp ix -> y1 ix = fold_left (fun acc k => nadd acc (y2 (ins2 k ix))) (seq 0 F) nzero.

Lemma fold_ext {A B} (f g : A -> B -> A) l : (forall a b, In b l -> f a b = g a b) -> forall a, fold_left f l a = fold_left g l a.
Proof. induction l as [|b l IH]; intros H a; simpl; auto. rewrite H by (left; auto). apply IH. intros; apply H; right; auto. Qed.

Lemma hw_follows : follows tsub hw hw_full eq RYw (fun _ _ => True).
Proof.
  split; auto.
  - intros t x H. exists x. split; auto.
  - intros wd t t' x ? wd' x' <- H. exists x'. split; auto.
  - intros t x ? y1 <- H. cbn [hw_full ig_let]. unfold sde_let. rewrite assign_can by apply can_refl.
    eexists. split; [reflexivity|]. intros ix HI.
    cbn [hull_white_process ig_let] in H. apply assign_ok in H. destruct H as [-> _].
    assert (SP : pop2 w = vp). { unfold w, vp. rewrite pop2_snoc. reflexivity. }
    assert (SD : dim2 w = F). { unfold w. rewrite dim2_snoc. reflexivity. }
    fold w. rewrite bget_self by (simpl; rewrite SP; exact HI). unfold sum2. cbn [shp dat]. rewrite SD.
    cbn [shp dat]; apply fold_ext. intros acc k HK. apply in_seq in HK. rewrite (bget_self (mkArr w x)) by (apply w_ins2; auto; lia). reflexivity.
  - intros. eexists. split; [|exact Logic.I]. cbn [hw_full ig_getinfo ig_info_next]. unfold no_info_next. destruct gi; reflexivity.
  - intros. eexists. split; [|exact Logic.I]. cbn [hw_full ig_getinfo ig_info_end]. unfold no_info_end. destruct gi; reflexivity.
Qed.

(** one factor *)
Section Factor.
Context {If : Type}.
Variables (f : nat) (dwf : Wd -> T -> V -> res (Wd * arr V)) (gif : bool) (x0f : arr V) (argsf : dict (param T V)).
Hypothesis Hf : f < F.
Hypothesis HD : slice_src vp f dw dwf.
Hypothesis HX : slice_of vp f x0 x0f.
Hypothesis HA : slice_args vp f args argsf.
Notation ou := (ou_process (I := If) dwf gif vshape paths x0f argsf).

Lemma slice_arg t k a : arg k (map (fun '(k, z) => (k, peval t z)) args) = Ok a ->
  exists af, arg k (map (fun '(k, z) => (k, peval t z)) argsf) = Ok af /\ slice_of vp f a af.
Proof.
  unfold arg. clear HX. induction HA as [|[k1 z1] [k2 z2] l l' [E S] F' IH]; simpl; [discriminate|].
  simpl in E, S. subst k2. destruct (String.eqb k k1); [|auto]. intro H; injection H as <-. eauto.
Qed.

Definition RXf (x1 x2 : buf V) : Prop := forall ix, inb vp ix -> x2 ix = x1 (ins2 f ix).

Lemma ou_A_agree t x1 x2 A1 : RXf x1 x2 -> sde_A dw_ids args ou_sde t (mkArr w x1) = Ok A1 ->
  exists A2, sde_A dw_ids argsf ou_sde t (mkArr vp x2) = Ok A2 /\
    Forall2 (fun p q => fst p = fst q /\ slice_of vp f (snd p) (snd q)) A1 A2.
Proof.
  intros HR H. unfold sde_A, ou_sde, revert in *.
  destruct (arg "theta" (map _ args)) as [th|] eqn:E1; cbn [rbind] in H; [|discriminate].
  destruct (arg "k" (map _ args)) as [k|] eqn:E2; cbn [rbind] in H; [|discriminate].
  destruct (arg "sigma" (map _ args)) as [sg|] eqn:E3; cbn [rbind] in H; [|discriminate].
  destruct (aop nsub th _) as [d0|] eqn:E4; cbn [rbind] in H; [|discriminate].
  destruct (aop nmul k d0) as [d|] eqn:E5; cbn [rbind] in H; [|discriminate].
  rewrite dw_check in H. injection H as <-.
  destruct (slice_arg _ _ _ E1) as (thf & -> & [C1 S1]). cbn [rbind].
  destruct (slice_arg _ _ _ E2) as (kf & -> & [C2 S2]). cbn [rbind].
  destruct (slice_arg _ _ _ E3) as (sgf & -> & [C3 S3]). cbn [rbind].
  destruct (aop_ok nsub thf (mkArr vp x2) vp C1 (can_refl _)) as (d0f & E4f & C4). rewrite E4f. cbn [rbind].
  destruct (aop_ok nmul kf d0f vp C2 C4) as (df & E5f & C5). rewrite E5f. cbn [rbind].
  rewrite dw_check. eexists. split; [reflexivity|].
  repeat constructor; auto. simpl. intros ix HI.
  rewrite (aop_get _ _ _ _ ix E5f), (aop_get _ _ _ _ ix E4f), (aop_get _ _ _ _ _ E5), (aop_get _ _ _ _ _ E4).
  rewrite S1, S2 by auto. rewrite (bget_self (mkArr vp x2)) by auto. rewrite (bget_self (mkArr w x1)) by (apply w_ins2; auto).
  simpl. rewrite HR by auto. reflexivity.
Qed.

Lemma factor_follows : follows tsub hw_full ou RXf RXf (fun _ _ => True).
Proof.
  split; auto.
  - intros t x H. cbn [hw_full ig_init] in H. unfold sde_init in H. apply assign_ok in H. destruct H as [-> _].
    cbn [ou_process mk_sde ig_init]. unfold sde_init. destruct HX as [C S]. rewrite assign_can by exact C.
    eexists. split; [reflexivity|]. intros ix HI. exact (S ix HI).
  - intros wd t t' x1 x2 wd' x1' HR H.
    apply (euler_next_agree tsub hw_full ou (ins2 f)) with (x1 := x1); auto.
    + intros id wd0 t0 dt wd0' z1 HI HS. cbn [hw_full ig_src ig_ids] in HS, HI.
      destruct HI as [<-|[<-|[]]].
      * injection HS as <- <-. exists (ascalar dt). split; [reflexivity|]. split; [apply can_nil|reflexivity].
      * exact (HD wd0 t0 dt wd0' z1 HS).
    + intros ix HI. apply w_ins2; auto.
    + intros A1 EA. exact (ou_A_agree t x1 x2 A1 HR EA).
  - intros t x1 x2 y1 HR H. cbn [hw_full ig_let] in H. unfold sde_let in H. apply assign_ok in H. destruct H as [-> _].
    cbn [ou_process mk_sde ig_let]. unfold sde_let. rewrite assign_can by apply can_refl.
    eexists. split; [reflexivity|]. intros ix HI. rewrite !bget_self by (try apply w_ins2; auto). simpl. auto.
  - intros. eexists. split; [|exact Logic.I]. cbn [ou_process mk_sde ig_getinfo ig_info_next]. unfold no_info_next. destruct gif; reflexivity.
  - intros. eexists. split; [|exact Logic.I]. cbn [ou_process mk_sde ig_getinfo ig_info_end]. unfold no_info_end. destruct gif; reflexivity.
Qed.
End Factor.
End HW.

Section Sum.
Context {T : Type} {TO : TOrd T} {TL : TOrdLaws T} {V : Type} {NV : Num V} {Wd I If : Type}.
Variable tsub : T -> T -> V.

Lemma fold_seq_map (g : nat -> V) (ys : list (buf V)) ix : forall a n,
  (forall k y, nth_error ys k = Some y -> g (a + k) = y ix) -> length ys = n ->
  forall acc, fold_left (fun acc k => nadd acc (g k)) (seq a n) acc = fold_left (fun acc (y : buf V) => nadd acc (y ix)) ys acc.
Proof.
  induction ys as [|y ys IH]; intros a n H L acc; destruct n; try discriminate; simpl; auto.
  rewrite <- (H 0 y eq_refl), Nat.add_0_r. apply IH; [|simpl in L; lia].
  intros k y' E. rewrite <- (H (S k) y' E). f_equal. lia.
Qed.

Theorem hull_white_sum (dw : Wd -> T -> V -> res (Wd * arr V)) gi vshape F paths x0 args
    (dwf : nat -> Wd -> T -> V -> res (Wd * arr V)) (gif : nat -> bool) (x0f : nat -> arr V) (argsf : nat -> dict (param T V))
    i0 pace_fn fuel wd (inf : I) (inff : If) (timeline : list T) p0 wd' inf' xx :
  let vp := vshape ++ [paths] in
  (forall f, f < F -> slice_src vp f dw (dwf f) /\ slice_of vp f x0 (x0f f) /\ slice_args vp f args (argsf f)) ->
  valid_timeline timeline -> start_index (length timeline) i0 p0 ->
  length timeline + length (pace_fn timeline) <= fuel ->
  sde_call tsub (hull_white_process dw gi vshape F paths x0 args) i0 pace_fn fuel (wd, inf)
           [length timeline] timeline = Ok ((wd', inf'), xx) ->
  exists xxs : list (list (option (buf V))),
    length xxs = F /\
    (forall f xxf, nth_error xxs f = Some xxf -> exists inff',
       sde_call tsub (ou_process (dwf f) (gif f) vshape paths (x0f f) (argsf f)) i0 pace_fn fuel (wd, inff)
                [length timeline] timeline = Ok ((wd', inff'), xxf) /\ length xxf = length xx) /\
    forall i b, nth_error xx i = Some b ->
      exists y ys, b = Some y /\ Forall2 (fun xxf yf => nth_error xxf i = Some (Some yf)) xxs ys /\
        forall ix, inb vp ix -> y ix = sum_at ys ix.
Proof.
  intros vp HS V0 SI HF H.
  destruct (integ_sim tsub _ _ _ _ _ (hw_follows tsub dw gi vshape F paths x0 args) i0 pace_fn fuel wd inf inf timeline p0
     wd' inf' xx V0 SI HF Logic.I H) as (infF & xxF & EF & _ & FF).
  assert (G : forall f, f < F -> exists inff' xxf,
     sde_call tsub (ou_process (dwf f) (gif f) vshape paths (x0f f) (argsf f)) i0 pace_fn fuel (wd, inff)
                [length timeline] timeline = Ok ((wd', inff'), xxf) /\
     Forall2 (fun a b => exists y1 y2, a = Some y1 /\ b = Some y2 /\ RXf vshape paths f y1 y2) xxF xxf).
  { intros f Hf. destruct (HS f Hf) as (S1 & S2 & S3).
    destruct (integ_sim tsub _ _ _ _ _ (factor_follows (I := I) (If := If) tsub dw gi vshape F paths x0 args f (dwf f) (gif f) (x0f f) (argsf f) Hf S1 S2 S3)
      i0 pace_fn fuel wd inf inff timeline p0 wd' infF xxF V0 SI HF Logic.I EF) as (inff' & xxf & E & _ & FE).
    exists inff', xxf. split; auto. }
  assert (C : forall n, n <= F -> exists xxs : list (list (option (buf V))), length xxs = n /\
     forall f xxf, nth_error xxs f = Some xxf -> exists inff',
     sde_call tsub (ou_process (dwf f) (gif f) vshape paths (x0f f) (argsf f)) i0 pace_fn fuel (wd, inff)
                [length timeline] timeline = Ok ((wd', inff'), xxf) /\
     Forall2 (fun a b => exists y1 y2, a = Some y1 /\ b = Some y2 /\ RXf vshape paths f y1 y2) xxF xxf).
  { induction n as [|n IH]; intro Hn.
    - exists []. split; auto. intros [|] xxf E; discriminate.
    - destruct (IH ltac:(lia)) as (xxs & L & HX). destruct (G n ltac:(lia)) as (inff' & xxf & E & FE).
      exists (xxs ++ [xxf]). split; [rewrite app_length; simpl; lia|]. intros f xf Ef.
      destruct (Nat.lt_ge_cases f n) as [Lt|Ge].
      + rewrite nth_error_app1 in Ef by lia. auto.
      + assert (f = n). { assert (f < length (xxs ++ [xxf])) by (apply nth_error_Some; congruence). rewrite app_length in *; simpl in *; lia. }
        subst f. rewrite nth_error_app2 in Ef by lia. rewrite L, Nat.sub_diag in Ef. injection Ef as <-. eauto. }
  destruct (C F ltac:(lia)) as (xxs & L & HX). exists xxs. split; auto.
  assert (LF := Forall2_len _ _ _ FF). split.
  { intros f xxf E. destruct (HX f xxf E) as (i' & E' & FE). exists i'. split; auto. apply Forall2_len in FE. lia. }
  intros i b Ei. destruct (Forall2_nth _ _ _ i b FF Ei) as (bF & EbF & (y1 & y2 & -> & -> & HY)).
  assert (D : forall l : list (list (option (buf V))), (forall f xxf, nth_error l f = Some xxf -> exists yf, nth_error xxf i = Some (Some yf)) ->
     exists ys, Forall2 (fun xxf yf => nth_error xxf i = Some (Some yf)) l ys).
  { clear. induction l as [|a l IH]; intro H; [exists []; constructor|].
    destruct (H 0 a eq_refl) as (y & E). destruct IH as (ys & F2). { intros f xxf E'. apply (H (S f)); auto. }
    exists (y :: ys). constructor; auto. }
  assert (P : forall f xxf, nth_error xxs f = Some xxf -> exists yf, nth_error xxf i = Some (Some yf) /\ RXf vshape paths f y2 yf).
  { intros f xxf E. destruct (HX f xxf E) as (i' & _ & FE).
    destruct (Forall2_nth _ _ _ i _ FE EbF) as (bf & Ebf & (u1 & u2 & EU & -> & HR)).
    exists u2. split; auto. assert (u1 = y2) by (unfold fin in EU; simpl in EU; congruence). subst; auto. }
  destruct (D xxs) as (ys & FY). { intros f xxf E. destruct (P f xxf E) as (yf & E' & _). eauto. }
  exists y1, ys. split; [reflexivity|]. split; [exact FY|]. intros ix HI. unfold RYw in HY. rewrite HY by exact HI.
  unfold sum_at. apply fold_seq_map.
  - intros k y Ek. simpl. destruct (Forall2_nth2 _ _ _ FY k y Ek) as (xxf & Ex & Ex').
    destruct (P k xxf Ex) as (yf & E' & HR). rewrite Ex' in E'. injection E' as <-. symmetry. apply HR; auto.
  - apply Forall2_len in FY. lia.
Qed.
End Sum.
