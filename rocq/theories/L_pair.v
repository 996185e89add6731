(** Lemmas on antithetic paths of linear equations. *)
From Coq Require Import String List Arith Bool ZArith Reals Lra Lia Sorted.
From Coquelicot Require Import Coquelicot.
From Verif Require Import Base BaseOrd BaseNum BaseArr M_paths S_paths S_run L_ord L_paths8
  M_process M_source S_source M_sde S_sde L_sde L_sde2 L_sde3 M_presets S_presets L_presets L_presets2 M_integrate S_integrate P_source P_source2 P_source4 S_true2 S_euler L_euler L_euler2
  BaseNd BaseIdx S_process L_nd L_pack L_process P_source3 M_rv S_rv M_analytical S_analytical M_anti S_dist S_law P_chf L_line L_complex L_law L_law2 L_law4 L_law5 S_gval L_gval L_gval2 L_gval3 L_gval4 L_gval6 S_tval L_tval L_tval2 L_tval3 L_tval4 L_tval6
  L_gop L_cirop L_nrun L_cirrun S_mean L_conv L_cok L_tame L_meanrun.
Import ListNotations.
Local Open Scope R_scope.

(** increments dw on 2n paths: those given by dw0 on n paths, and their opposites *)
Definition paired {G} (vshape : list nat) (n : nat) (dw dw0 : G -> R -> R -> res (G * arr R)) : Prop :=
  forall g t dt, exists g' z z', dw0 g t dt = Ok (g', z) /\ dw g t dt = Ok (g', z') /\
    forall r j, inb vshape r -> (j < n)%nat -> bget z' (r ++ [j])%list = bget z (r ++ [j])%list /\ bget z' (r ++ [(n + j)%nat])%list = - bget z (r ++ [j])%list.

Lemma anti_paired {G} (normal : list nat -> G -> res (arr R) * G) mvnormal vshape n s (L : nat -> (G -> R) -> R) : is_law L -> normal_ok normal -> normal_law L normal (vshape ++ [n]) ->
  odd_wiener_source normal mvnormal INone INone (2*n) vshape = Ok s -> paired vshape n (at_step s) (at_step (wiener_call normal mvnormal n vshape PNone)).
Proof.
  intros HL N_ok N_law. unfold odd_wiener_source, antithetics_source. destruct (C30_even_paths (2*n)) as [E0 _]. rewrite Nat.even_mul in E0. cbn [Nat.even orb] in E0. rewrite E0. cbn [rbind].
  replace (2*n/2)%nat with n by (rewrite Nat.mul_comm, Nat.div_mul; lia).
  unfold wiener_source. rewrite wiener_new_none. cbn [rbind]. intro HS. injection HS as HS. set (s0 := wiener_call normal mvnormal n vshape PNone) in *.
  destruct (plain_mean L HL normal mvnormal N_ok vshape n N_law) as [GV _]. fold s0 in GV.
  intros g t dt. destruct (GV g t dt) as (g' & z & EZ & S). unfold at_step in EZ. destruct (s0 (ascalar t) (ascalar dt) g) as [[z1|] g1] eqn:E1; [|discriminate].
  injection EZ as -> ->. destruct (C30_halves (fun z => 0 - z) (s0 (ascalar t) (ascalar dt)) g z g' vshape n E1 S) as (z' & H1 & H2 & H3).
  exists g', z, z'. unfold at_step. rewrite E1, <- HS, H1. split; [reflexivity|]. split; [reflexivity|].
  intros r j Hr Hj. destruct (H3 r j Hr Hj) as [X Y].
  rewrite !(bget_self z') by (rewrite H2; apply inb_app; auto; repeat constructor; lia). rewrite (bget_self z) by (rewrite S; apply inb_app; auto; repeat constructor; lia).
  rewrite X, Y. split; [reflexivity|ring].
Qed.

Section Couple.
Context {G : Type}.
Variables (vshape : list nat) (n : nat) (dw dw0 : G -> R -> R -> res (G * arr R)).
Hypothesis HP : paired vshape n dw dw0.
Variables (al ka b : R -> list nat -> R) (gr : list R) (r : list nat) (j : nat).
Hypothesis Hr : inb vshape r.
Hypothesis Hj : (j < n)%nat.
Let ix := (r ++ [j])%list.
Let jx := (r ++ [(n + j)%nat])%list.
Lemma inc_pair g t dt : fst (dw_inc dw g t dt) = fst (dw_inc dw0 g t dt) /\ snd (dw_inc dw g t dt) ix = snd (dw_inc dw0 g t dt) ix /\ snd (dw_inc dw g t dt) jx = - snd (dw_inc dw0 g t dt) ix.
Proof using HP Hr Hj. destruct (HP g t dt) as (g' & z & z' & E1 & E2 & H). unfold dw_inc. rewrite E1, E2. cbn [fst snd]. split; [reflexivity|]. exact (H r j Hr Hj). Qed.
Lemma fgo_half m : forall k x x' g, x ix = x' ix -> fgo (dw_inc dw) (lstep al ka b) gr m k x g ix = fgo (dw_inc dw0) (lstep al ka b) gr m k x' g ix.
Proof using HP Hr Hj.
  induction m as [|m IH]; intros k x x' g E; [exact E|]. cbn [fgo]. cbv zeta. destruct (inc_pair g (nth k gr 0) (gap gr k)) as (E1 & E2 & _). rewrite E1. apply IH. apply lstep_ext; assumption.
Qed.
Hypothesis SA : forall t, al t jx = al t ix.
Hypothesis SK : forall t, ka t jx = ka t ix.
Hypothesis SB : forall t, b t jx = b t ix.
Lemma fgo_reflected m : forall k x g, fgo (dw_inc dw) (lstep al ka b) gr m k x g ix + fgo (dw_inc dw) (lstep al ka b) gr m k x g jx = 2 * lc al ka gr ix m k + lk ka gr ix m k * (x ix + x jx).
Proof using HP Hr Hj SA SK SB.
  induction m as [|m IH]; intros k x g; cbn [fgo lk lc]; [ring|]. cbv zeta. rewrite IH. destruct (inc_pair g (nth k gr 0) (gap gr k)) as (_ & E1 & E2). unfold lstep. rewrite E1, E2, SA, SK, SB. ring.
Qed.
End Couple.

Section Law.
Context {G I : Type}.
Variables (L : nat -> (G -> R) -> R) (normal : list nat -> G -> res (arr R) * G) (mvnormal : arr R -> list nat -> G -> res (arr R) * G).
Variables (c : R -> nat -> nat -> R) (n paths : nat) (vshape : list nat) (s : src (V := R) (G := G) (arr R)).
Hypothesis HS : noise_source L normal mvnormal true INone INone c n paths vshape s.
Let w := (vshape ++ [paths])%list.
Let w0 := (vshape ++ [n])%list.
Variables (sde : R -> arr R -> dict (arr R) -> res (sdeval R)) (log gi : bool) (x0 : arr R) (b : R -> arr R) (args : dict (M_sde.param R R)) (al ka : R -> list nat -> R).
Hypothesis HX : broadcasts (shp x0) w.
Hypothesis HD : drift_noise_at w sde args al ka b.
Variables (pace_fn : list R -> list R) (fuel : nat) (inf : I) (timeline : list R) (t0 : R).
Hypothesis V0 : valid_timeline timeline.
Hypothesis N0 : nth_error timeline 0 = Some t0.
Hypothesis HF : (List.length timeline + List.length (pace_fn timeline) <= fuel)%nat.
Let N := List.length timeline.
Let run g := sde_call Rminus (mk_sde (I := I) dw_ids (dw_src (at_step s)) log sde gi vshape paths x0 args) 0 pace_fn fuel (g, inf) [N] timeline.
Let v0 ix := if log then ln (bget x0 ix) else bget x0 ix.
Let val (x : R) : R := if log then exp x else x.
Lemma lin_pair :
  (forall g, exists s' xx, run g = Ok (s', xx)) /\ paths = (2*n)%nat /\
  exists (X : G -> nat -> list nat -> R) (m v : nat -> list nat -> R),
    (forall a sg ix, (forall t, ka t ix = 0) -> (forall t, al t ix = a) -> (forall t, bget (b t) ix = sg) -> forall i, (i < N)%nat ->
       m i ix = v0 ix + a * (nth i timeline 0 - t0) /\ v i ix = sg * sg * (nth i timeline 0 - t0)) /\
    (forall g i r j, (i < N)%nat -> inb vshape r -> (j < n)%nat -> value_at (run g) i (r ++ [j]) = val (X g i (r ++ [j])%list)) /\
    (forall g i r j, (i < N)%nat -> inb vshape r -> (j < n)%nat -> let ix := (r ++ [j])%list in let jx := (r ++ [(n + j)%nat])%list in
       bget x0 jx = bget x0 ix -> (forall t, al t jx = al t ix) -> (forall t, ka t jx = ka t ix) -> (forall t, bget (b t) jx = bget (b t) ix) ->
       value_at (run g) i jx = val (2 * m i ix - X g i ix)) /\
    (forall i ix f d, (i < N)%nat -> inb w0 ix -> cok f -> (N + List.length (pace_fn timeline) <= d)%nat ->
       L d (fun g => f (X g i ix)) = EN (fun z => f (m i ix + sqrt (v i ix) * z))) /\
    (normal_sums L normal w0 -> forall i K u f d, (i < N)%nat -> (forall k ix, (k < K)%nat -> inb w0 ix -> cok (f k ix)) -> (N + List.length (pace_fn timeline) <= d)%nat ->
       L d (fun g => rsum (fun k => u k * rprod (fun ix => f k ix (X g i ix)) (ndindex w0)) (seq 0 K)) =
       rsum (fun k => u k * rprod (fun ix => EN (fun z => f k ix (m i ix + sqrt (v i ix) * z))) (ndindex w0)) (seq 0 K)).
Proof using HS HX HD V0 N0 HF.
  assert (HE := noise_mean L normal mvnormal true c n paths vshape s HS).
  destruct (lin_run (I := I) vshape paths (at_step s) (proj1 HE) sde log gi x0 b args al ka HX HD pace_fn fuel inf timeline t0 V0 N0 HF) as (R1 & gr & kk & OT & LG & R4).
  split; [exact R1|]. destruct HS as (HL & N_ok & M_ok & N_law & M_law & HC & EP & HA). cbn [given_dw] in HA. unfold source_dw, source_setup in HA. cbv iota in EP. split; [exact EP|]. rewrite EP in HA.
  assert (PR := anti_paired normal mvnormal vshape n s L HL N_ok N_law HA). set (s0 := wiener_call normal mvnormal n vshape PNone) in *.
  set (bb := fun t : R => bget (b t)) in *. fold v0 in R4. destruct OT as [(GP & GF & E0 & GK) _].
  exists (fun g i ix => fgo (dw_inc (at_step s0)) (lstep al ka bb) gr (kk i) 0 v0 g ix), (fun i ix => lc al ka gr ix (kk i) 0 + lk ka gr ix (kk i) 0 * v0 ix), (fun i ix => lv ka bb gr ix (kk i) 0).
  assert (IW : forall r j, inb vshape r -> (j < 2*n)%nat -> inb w (r ++ [j])) by (intros r j Hr Hj; unfold w; apply inb_app; [exact Hr|]; rewrite EP; repeat constructor; exact Hj).
  split; [|split; [|split; [|split]]].
  - intros a sg ix K0 A0 B0 i Hi. destruct (GK i Hi) as [K1 K2]. rewrite (lk_flat ka gr ix K0), (lc_flat al ka gr ix a K0 A0).
    rewrite (lv_flat ka bb gr ix sg K0 B0) by (intros j Hj; left; apply GP; lia). cbn [Nat.add]. rewrite K2, E0. split; ring.
  - intros g i r j Hi Hr Hj. etransitivity; [exact (R4 g i (r ++ [j])%list Hi (IW r j Hr ltac:(lia)))|]. cbv zeta.
    rewrite (fgo_half vshape n (at_step s) (at_step s0) PR al ka bb gr r j Hr Hj (kk i) 0 v0 v0 g eq_refl). reflexivity.
  - intros g i r j Hi Hr Hj ix jx SX SA SK SB. etransitivity; [exact (R4 g i jx Hi (IW r (n + j)%nat Hr ltac:(lia)))|]. cbv zeta.
    assert (Q := fgo_reflected vshape n (at_step s) (at_step s0) PR al ka bb gr r j Hr Hj SA SK SB (kk i) 0 v0 g). fold ix jx in Q.
    assert (Q2 := fgo_half vshape n (at_step s) (at_step s0) PR al ka bb gr r j Hr Hj (kk i) 0 v0 v0 g eq_refl). fold ix in Q2. rewrite Q2 in Q.
    assert (VX : v0 jx = v0 ix) by (unfold v0; rewrite SX; reflexivity). rewrite VX in Q.
    replace (fgo (dw_inc (at_step s)) (lstep al ka bb) gr (kk i) 0 v0 g jx) with (2 * (lc al ka gr ix (kk i) 0 + lk ka gr ix (kk i) 0 * v0 ix) - fgo (dw_inc (at_step s0)) (lstep al ka bb) gr (kk i) 0 v0 g ix) by lra.
    reflexivity.
  - intros i ix f d Hi HI TF Hd. destruct (GK i Hi) as [K1 K2]. apply (one_linear L HL w0 (at_step s0) al ka bb gr (plain_mean L HL normal mvnormal N_ok vshape n N_law) ix HI (kk i) 0 v0 f d TF). unfold N in *. lia.
  - intros NS i K u f d Hi TF Hd. destruct (GK i Hi) as [K1 K2].
    apply (sum_linear L HL w0 (at_step s0) al ka bb gr (plain_sums L HL normal mvnormal N_ok vshape n NS) K (kk i) 0 v0 u f d TF). unfold N in *. lia.
Qed.
End Law.
