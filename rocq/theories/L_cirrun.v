(** Lemmas on the law of the entries of Wiener increments, and on the values of integrations of cir_process. *)
From Coq Require Import String List Arith Bool ZArith Reals Lra Lia Sorted.
From Coquelicot Require Import Coquelicot.
From Verif Require Import Base BaseOrd BaseNum BaseArr M_paths S_paths S_run L_ord L_paths8
  M_process M_source S_source M_sde S_sde L_sde L_sde2 L_sde3 M_presets S_presets L_presets L_presets2 M_integrate S_integrate P_source P_source2 P_source4 S_true2 S_euler L_euler L_euler2
  BaseNd BaseIdx S_process L_nd L_pack L_process P_source3 M_rv S_rv M_analytical S_analytical M_anti S_dist S_law P_chf L_line L_complex L_law L_law2 L_law4 L_law5 S_gval L_gval L_gval2 L_gval3 L_gval4 S_tval L_tval L_tval2 L_tval3 L_tval4 L_tval6
  L_gop L_cirop L_nrun.
Import ListNotations.
Local Open Scope R_scope.

Lemma mean_const a : mean_normal (fun _ => a) a.
Proof. assert (H := EN_ok _ (tame_const a)). rewrite (EN_const a) in H. exact H. Qed.

(** *** symmetry *)
Lemma EN_opp f : tame f -> EN (fun z => f (- z)) = EN f.
Proof.
  intro TF. apply EN_eq. assert (H := EN_ok f TF). unfold mean_normal in *.
  set (h := fun x => f x * (exp (- (x*x/2))/sqrt (2*PI))) in *.
  assert (CH : cont_line h).
  { intro x. unfold h. apply (continuous_mult f (fun x => exp (- (x*x/2))/sqrt (2*PI))); [apply TF|]. apply (ex_derive_continuous (V := R_NormedModule)). auto_derive; auto. }
  assert (CO : cont_line (fun x => h (- x))).
  { intro x. apply (continuous_comp Ropp h); [apply (continuous_opp (V := R_NormedModule)), continuous_id|apply CH]. }
  apply line_ext with (f := fun x => h (- x)).
  2: { intro x. unfold h. replace (- x * - x) with (x*x) by ring. reflexivity. }
  apply line_intro; [exact CO|]. intros eps He. destruct (line_elim _ _ H eps He) as (M & MP & K). exists M. split; [exact MP|]. intros a b Ha Hb.
  assert (X : RInt (fun x => h (- x)) a b = RInt h (- b) (- a)).
  { assert (Y := is_RInt_comp_opp (V := R_NormedModule) h a b (RInt h (- a) (- b)) (RInt_correct (V := R_CompleteNormedModule) _ _ _ (cint h (- a) (- b) CH))).
    assert (Z := is_RInt_opp (V := R_NormedModule) _ _ _ _ Y).
    apply (is_RInt_unique (V := R_CompleteNormedModule)). rewrite <- (opp_RInt_swap h (- a) (- b)) by (apply cint; exact CH).
    eapply is_RInt_ext; [|exact Z]. intros x _. cbv beta. rewrite opp_opp. reflexivity. }
  rewrite X. apply K; lra.
Qed.

(** *** entries of increments *)
Lemma cprod_pick {A} (dec : forall x y : A, {x = y} + {x <> y}) (f : A -> C) a l : NoDup l -> In a l -> cprod (fun x => if dec a x then f x else 1%C) l = f a.
Proof.
  intros ND. induction ND as [|x l NI ND IH]; intro H; [easy|].
  change (cprod ?F (x :: l)) with (F x * cprod F l)%C. cbv beta. destruct (dec a x) as [->|NE].
  - rewrite (cprod_ext _ (fun _ => 1%C)), cprod_one; [ring|]. intros y Hy. destruct (dec x y); [subst; contradiction|reflexivity].
  - destruct H as [H|H]; [congruence|]. rewrite IH by auto. ring.
Qed.

Section Entries.
Context {G : Type}.
Variable L : nat -> (G -> R) -> R.
(** each entry of an increment is normal, independently of what is drawn later, its variance being the length of the step *)
Definition entry_normal (w : list nat) (dw : G -> R -> R -> res (G * arr R)) : Prop :=
  (forall g t dt, exists g' z, dw g t dt = Ok (g', z) /\ shp z = w) /\
  forall t dt ix d (Phi : R -> G -> R) V, inb w ix -> tame V -> (forall y, L d (Phi y) = V y) ->
    L (S d) (fun g => Phi (snd (dw_inc dw g t dt) ix) (fst (dw_inc dw g t dt))) = EN (fun z => V (sqrt (Rabs dt) * z)).

Hypothesis HL : is_law L.
Variables (normal : list nat -> G -> res (arr R) * G) (mvnormal : arr R -> list nat -> G -> res (arr R) * G).
Hypothesis N_ok : normal_ok normal.
Variables (vshape : list nat) (n : nat).
Hypothesis N_law : normal_law L normal (vshape ++ [n]).

Lemma plain_entry : entry_normal (vshape ++ [n]) (at_step (wiener_call normal mvnormal n vshape PNone)).
Proof using HL N_ok N_law.
  assert (V : forall g t dt, exists z, at_step (wiener_call normal mvnormal n vshape PNone) g t dt = Ok (snd (normal (vshape ++ [n])%list g), z) /\ shp z = (vshape ++ [n])%list /\
    exists a, fst (normal (vshape ++ [n])%list g) = Ok a /\ shp a = (vshape ++ [n])%list /\ forall ix, inb (vshape ++ [n]) ix -> bget z ix = dat a ix * sqrt (Rabs dt)).
  { intros g t dt. destruct (C27_uncorrelated normal mvnormal n vshape (ascalar t) (ascalar dt) g [] N_ok eq_refl) as (z & g' & dz & E1 & D & S & H).
    cbn [app] in E1, S. exists dz. unfold at_step. rewrite D, E1. cbn [fst snd]. split; [reflexivity|]. split; [exact S|]. exists z. split; [reflexivity|].
    split. { destruct (N_ok (vshape ++ [n])%list g) as (z1 & g1 & E2 & S1). rewrite E1 in E2. injection E2 as <- <-. exact S1. }
    intros ix HI. rewrite bget_self by (rewrite S; auto). specialize (H [] ix). cbn [app] in H. rewrite H; auto. constructor. }
  split. { intros g t dt. destruct (V g t dt) as (z & E & S & _). eauto. }
  intros t dt ix d Phi W HI TW HP. set (w := (vshape ++ [n])%list) in *. set (c := sqrt (Rabs dt)).
  set (dec := list_eq_dec Nat.eq_dec).
  assert (TC : tame (fun z => W (c*z))) by (apply (tame_aff W 0 c) in TW; eapply tame_ext; [|exact TW]; intro; cbv beta; f_equal; ring).
  assert (X := N_law d (fun a g => RtoC (Phi (c * dat a ix) g)) (fun jx x => if dec ix jx then RtoC (W (c*x)) else 1%C)
    (fun jx => if dec ix jx then RtoC (EN (fun z => W (c*z))) else 1%C) 1%C).
  destruct X as [X _].
  - intros a _ _. cbv beta.
    rewrite (cprod_pick dec (fun jx => RtoC (W (c * dat a jx)))); [|apply NoDup_ndindex|apply in_ndindex; exact HI].
    split; cbn [fst snd RtoC Cmult]; [rewrite HP; ring|rewrite (proj2 HL); ring].
  - intros jx _. destruct (dec ix jx) as [_|_].
    + split; cbn [fst snd RtoC]; [apply EN_ok; exact TC|exact (mean_const 0)].
    + split; cbn [fst snd RtoC]; [exact (mean_const 1)|exact (mean_const 0)].
  - rewrite (cprod_pick dec (fun jx => RtoC (EN (fun z => W (c*z))))) in X; [|apply NoDup_ndindex|apply in_ndindex; exact HI].
    cbn [fst snd RtoC Cmult] in X. transitivity (EN (fun z => W (c*z)) * 1 - 0*0); [|ring]. rewrite <- X. apply (proj1 HL). intro g. unfold after, dw_inc.
    destruct (V g t dt) as (z & E & S & a & EA & SA & HZ). rewrite E. cbn [fst snd].
    destruct (normal w g) as [[a'|] g']; cbn [fst snd] in *; [|discriminate]. injection EA as ->.
    rewrite HZ by exact HI. fold c. rewrite Rmult_comm. reflexivity.
Qed.
Lemma anti_entry s : odd_wiener_source normal mvnormal INone INone (2*n) vshape = Ok s -> entry_normal (vshape ++ [(2*n)%nat]) (at_step s).
Proof using HL N_ok N_law.
  unfold odd_wiener_source, antithetics_source. destruct (C30_even_paths (2*n)) as [E0 _]. rewrite Nat.even_mul in E0. cbn [Nat.even orb] in E0. rewrite E0. cbn [rbind].
  replace (2*n/2)%nat with n by (rewrite Nat.mul_comm, Nat.div_mul; lia).
  unfold wiener_source. rewrite wiener_new_none. cbn [rbind]. intro HS. injection HS as HS. set (s0 := wiener_call normal mvnormal n vshape PNone) in *.
  destruct plain_entry as [GV GS]. fold s0 in GV, GS.
  assert (V : forall g t dt, exists g' z z', at_step s0 g t dt = Ok (g', z) /\ shp z = (vshape ++ [n])%list /\
    at_step s g t dt = Ok (g', z') /\ shp z' = (vshape ++ [(2*n)%nat])%list /\
    forall r j, inb vshape r -> (j < n)%nat -> bget z' (r ++ [j])%list = bget z (r ++ [j])%list /\ bget z' (r ++ [(n + j)%nat])%list = - bget z (r ++ [j])%list).
  { intros g t dt. destruct (GV g t dt) as (g' & z & EZ & S). unfold at_step in EZ. destruct (s0 (ascalar t) (ascalar dt) g) as [[z1|] g1] eqn:E1; [|discriminate].
    injection EZ as -> ->. destruct (C30_halves (fun z => 0 - z) (s0 (ascalar t) (ascalar dt)) g z g' vshape n E1 S) as (z' & H1 & H2 & H3).
    exists g', z, z'. unfold at_step. rewrite E1, <- HS, H1. split; [reflexivity|]. split; [exact S|]. split; [reflexivity|]. split; [exact H2|].
    intros r j Hr Hj. destruct (H3 r j Hr Hj) as [X Y].
    rewrite !(bget_self z') by (rewrite H2; apply inb_app; auto; repeat constructor; lia). rewrite (bget_self z) by (rewrite S; apply inb_app; auto; repeat constructor; lia).
    rewrite X, Y. split; [reflexivity|ring]. }
  split. { intros g t dt. destruct (V g t dt) as (g' & z & z' & _ & _ & E1 & E2 & _). eauto. }
  intros t dt ix d Phi W HI TW HP. apply inb_snoc in HI. destruct HI as (r & j & -> & Hr & Hj).
  destruct (lt_dec j n) as [J|J].
  - rewrite <- (GS t dt (r ++ [j])%list d Phi W); [|apply inb_app; auto; repeat constructor; lia|exact TW|exact HP].
    apply (proj1 HL). intro g. unfold dw_inc. destruct (V g t dt) as (g' & z & z' & E1 & _ & E2 & _ & H). rewrite E1, E2. cbn [fst snd]. destruct (H r j Hr J) as [-> _]. reflexivity.
  - set (c := sqrt (Rabs dt)). assert (TO : tame (fun y => W (- y))) by (apply (tame_aff W 0 (-1)) in TW; eapply tame_ext; [|exact TW]; intro; cbv beta; f_equal; ring).
    replace j with (n + (j - n))%nat by lia.
    transitivity (EN (fun z => W (- (c*z)))).
    + unfold c. rewrite <- (GS t dt (r ++ [(j - n)%nat])%list d (fun y => Phi (- y)) (fun y => W (- y))); [|apply inb_app; auto; repeat constructor; lia|exact TO|intro y; apply HP].
      apply (proj1 HL). intro g. unfold dw_inc. destruct (V g t dt) as (g' & z & z' & E1 & _ & E2 & _ & H). rewrite E1, E2. cbn [fst snd]. destruct (H r (j - n)%nat Hr ltac:(lia)) as [_ ->]. reflexivity.
    + assert (TC : tame (fun z => W (c*z))) by (apply (tame_aff W 0 c) in TW; eapply tame_ext; [|exact TW]; intro; cbv beta; f_equal; ring).
      rewrite <- (EN_opp _ TC). apply EN_ext. intro z. cbv beta. f_equal. ring.
Qed.
End Entries.

Lemma noise_entry {G} (L : nat -> (G -> R) -> R) normal mvnormal anti c n paths vshape s :
  noise_source L normal mvnormal anti INone INone c n paths vshape s -> entry_normal L (vshape ++ [paths]) (at_step s).
Proof.
  intros (HL & N_ok & M_ok & N_law & M_law & HC & -> & HS). destruct anti; cbn [given_dw] in HS; unfold source_dw, source_setup in HS.
  - eapply anti_entry; eauto.
  - unfold wiener_source in HS. rewrite wiener_new_none in HS. cbn [rbind] in HS. injection HS as <-. apply plain_entry; auto.
Qed.

(** *** integrations of cir_process *)
Section Law.
Context {G : Type}.
Variable L : nat -> (G -> R) -> R.
Hypothesis HL : is_law L.
Variables (w : list nat) (dw : G -> R -> R -> res (G * arr R)).
Hypothesis HE : entry_normal L w dw.
Variables (Fs : R -> R -> (list nat -> R) -> (list nat -> R) -> list nat -> R) (gr : list R) (ix : list nat) (theta k xi : R).
Hypothesis HI : inb w ix.
Hypothesis HK : 0 < k.
Hypothesis HT : 0 < theta.
Hypothesis EF : forall t dt x z, Fs t dt x z ix = x ix + k*(theta - Rmax (x ix) 0)*dt + xi*sqrt (Rmax (x ix) 0)*z ix.
(** the values of one entry *)
Fixpoint ego (m n : nat) (x : R) (g : G) : R :=
  match m with
  | O => x
  | S m => let p := dw_inc dw g (nth n gr 0) (gap gr n) in ego m (S n) (x + k*(theta - Rmax x 0)*gap gr n + xi*sqrt (Rmax x 0)*snd p ix) (fst p)
  end.
Lemma fgo_ego m : forall n x g, fgo (dw_inc dw) Fs gr m n x g ix = ego m n (x ix) g.
Proof using EF. induction m as [|m IH]; intros n x g; [reflexivity|]. cbn [fgo ego]. cbv zeta. rewrite IH, EF. reflexivity. Qed.
Lemma ego_law f M : tame f -> (forall j, (j < M)%nat -> 0 <= gap gr j) -> forall m n x d, (m <= d)%nat -> (n + m <= M)%nat ->
  L d (fun g => f (ego m n x g)) = itr theta k xi (gap gr) m n f x.
Proof using HE HI HK HL HT.
  intros TF GP m. induction m as [|m IH]; intros n x d Hd HM; [exact (proj2 HL d (f x))|]. destruct d as [|d]; [lia|].
  assert (G0 : 0 <= gap gr n) by (apply GP; lia).
  cbn [itr]. unfold Q. set (h := gap gr n) in *.
  assert (TI : tame (itr theta k xi (gap gr) m (S n) f)) by (apply (itr_tame theta k xi HK HT (gap gr) M); auto; lia).
  set (V := itr theta k xi (gap gr) m (S n) f) in *.
  set (b := xi*sqrt (Rmax x 0)). set (a := x + k*(theta - Rmax x 0)*h).
  assert (X := proj2 HE (nth n gr 0) h ix d (fun y g => f (ego m (S n) (a + b*y) g)) (fun y => V (a + b*y)) HI (tame_aff V a b TI)).
  etransitivity; [etransitivity; [|apply X]|].
  - apply (proj1 HL). intro g. reflexivity.
  - intro y. apply IH; lia.
  - rewrite Rabs_pos_eq by exact G0. apply EN_ext. intro z. unfold Aa, Bb, pos. fold a. fold b. f_equal. ring.
Qed.
End Law.

Section Run.
Context {G I : Type}.
Variable L : nat -> (G -> R) -> R.
Hypothesis HL : is_law L.
Variables (vshape : list nat) (paths : nat) (dw : G -> R -> R -> res (G * arr R)).
Let w := (vshape ++ [paths])%list.
Hypothesis HE : entry_normal L w dw.
Variables (gi : bool) (x0 theta k xi : arr R) (args : dict (M_sde.param R R)).
Hypothesis HX : broadcasts (shp x0) w.
Hypothesis AT : const_arg args "theta" theta.
Hypothesis AK : const_arg args "k" k.
Hypothesis AX : const_arg args "xi" xi.
Hypothesis BT : broadcasts (shp theta) w.
Hypothesis BK : broadcasts (shp k) w.
Hypothesis BX : broadcasts (shp xi) w.
Variables (pace_fn : list R -> list R) (fuel : nat) (inf : I) (timeline : list R) (t0 : R).
Hypothesis V0 : valid_timeline timeline.
Hypothesis N0 : nth_error timeline 0 = Some t0.
Hypothesis HF : (List.length timeline + List.length (pace_fn timeline) <= fuel)%nat.

Let ig : integ R R G I := cir_process dw gi vshape paths x0 args.
Let Fs (t dt : R) (x z : list nat -> R) (ix : list nat) : R :=
  x ix + bget k ix * (bget theta ix - Rmax (x ix) 0) * dt + bget xi ix * sqrt (Rmax (x ix) 0) * z ix.
Lemma cir_values :
  let run g := sde_call Rminus ig 0 pace_fn fuel (g, inf) [List.length timeline] timeline in
  let N := List.length timeline in
  (forall g, exists s' xx, run g = Ok (s', xx)) /\
  exists gr kk, on_times timeline (pace_fn timeline) t0 gr kk /\
    (List.length gr <= List.length timeline + List.length (pace_fn timeline))%nat /\
    forall i ix d f, (i < N)%nat -> inb w ix -> 0 < bget k ix -> 0 < bget theta ix -> tame f -> (List.length timeline + List.length (pace_fn timeline) <= d)%nat ->
      L d (fun g => f (value_at (run g) i ix)) = itr (bget theta ix) (bget k ix) (bget xi ix) (gap gr) (kk i) 0 f (bget x0 ix).
Proof using AK AT AX BK BT BX HE HF HL HX N0 V0.
  intros run N.
  assert (CX : can (shp x0) w = true) by (apply can_broadcasts; exact HX).
  assert (TI : total_integ ig (fun _ => True)).
  { apply dw_total; auto.
    - intros t x. fold w. unfold cir_sde. rewrite (arg_eval _ _ _ _ AT), (arg_eval _ _ _ _ AK), (arg_eval _ _ _ _ AX). cbn [rbind peval]. unfold plus_part, revert.
      apply can_broadcasts in BT, BK, BX.
      destruct (aop_ok nmax (mkArr w x) (ascalar nzero) w (can_refl w) (can_nil _)) as (xp & Q1 & Q2). rewrite Q1. cbn [rbind].
      destruct (aop_ok nsub theta xp w BT Q2) as (d1 & Q3 & Q4). rewrite Q3. cbn [rbind].
      destruct (aop_ok nmul k d1 w BK Q4) as (d2 & Q5 & Q6). rewrite Q5. cbn [rbind].
      destruct (aop_ok nmul xi (amap nsqrt xp) w BX Q2) as (d3 & Q7 & Q8). rewrite Q7. cbn [rbind]. exists d2, d3. auto.
    - intros wd t dt _. destruct (proj1 HE wd t dt) as (g' & z & E & S). exists g', z. split; [exact E|]. split; [rewrite S; apply can_refl|exact Logic.I]. }
  destruct (frun ig w w TI (dw_inc dw) (bget x0) Fs) with (outf := fun x : list nat -> R => x) (pace_fn := pace_fn) (fuel := fuel) (inf := inf) (timeline := timeline) (t0 := t0) as (R1 & gr & kk & R2 & R3 & R4); auto.
  - intros t dt x x' z ix HI E. unfold Fs. rewrite E by exact HI. reflexivity.
  - intros u t t' x u' x' E. destruct (cir_next_step dw vshape paths gi args x0 u t t' x u' x' E) as (th & ka & xx & z & (p1 & A1 & E1) & (p2 & A2 & E2) & (p3 & A3 & E3) & EZ & H).
    unfold dw_inc. rewrite EZ. cbn [fst snd]. split; [reflexivity|]. intros ix HI. unfold Fs. rewrite H by exact HI.
    rewrite AT in A1. rewrite AK in A2. rewrite AX in A3. injection A1 as <-. injection A2 as <-. injection A3 as <-. rewrite E1, E2, E3. reflexivity.
  - intros t x EI ix HI. cbn [ig_init mk_sde ig cir_process] in EI. unfold sde_init in EI. fold w in EI. rewrite assign_can in EI by auto. injection EI as <-. reflexivity.
  - intros t x y EL ix HI. cbn [ig_let mk_sde ig cir_process] in EL. unfold sde_let in EL. fold w in EL. rewrite assign_can in EL by apply can_refl. injection EL as <-. unfold fin. cbn [ig_log ig cir_process mk_sde]. rewrite bget_self by auto. reflexivity.
  - split; [exact R1|]. exists gr, kk. split; [exact R2|]. split; [exact R3|]. intros i ix d f Hi HI K0 T0 TF Hd.
    destruct R2 as [(GP & _ & _ & GK) _]. destruct (GK i Hi) as [KI _].
    rewrite <- (ego_law L HL w dw HE gr ix (bget theta ix) (bget k ix) (bget xi ix) HI K0 T0 f (kk i) TF) with (d := d).
    + apply (proj1 HL). intro g. unfold run, N in *. rewrite (R4 g i ix Hi HI). f_equal.
      rewrite <- (fgo_ego dw Fs gr ix (bget theta ix) (bget k ix) (bget xi ix)); [|reflexivity].
      assert (W := fgo_walk (dw_inc dw) Fs gr (bget x0) g (kk i) 0). cbn [fwalk gstate Nat.add] in W. rewrite <- W. reflexivity.
    + intros j Hj. left. apply GP. lia.
    + lia.
    + lia.
Qed.
End Run.
