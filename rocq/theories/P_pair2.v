(** C83, for time dependent parameters: mirrored paths of linear equations average to the mean of the simulated process in every
    run, and to the mean of the process as steps get shorter. *)
From Coq Require Import String List Arith Bool ZArith Reals Lra Lia.
From Coquelicot Require Import Coquelicot.
From Verif Require Import Base BaseOrd BaseNum BaseArr M_paths S_paths S_run L_ord L_paths8
  M_process M_source S_source M_sde S_sde L_sde L_sde2 L_sde3 M_presets S_presets L_presets M_integrate S_integrate P_source4 S_true2 S_euler L_euler L_euler2
  BaseNd BaseIdx S_process L_nd L_pack L_process P_process P_process3 P_source2 P_source3 M_mc S_mc P_mc M_rv S_rv M_analytical S_analytical M_dist S_dist L_gauss L_gauss2 L_dist P_dist P_bs P_price M_anti S_law P_chf L_law L_law2 L_law4 L_law5 L_law8 S_gval L_gval L_gval2 L_gval3 L_gval4 L_gval5 L_gval6 P_gval
  S_tval L_tval L_tval2 L_tval3 L_tval4 L_tval5 L_tval6 L_gop L_cirop L_nrun L_cirrun S_mean L_conv L_cok L_tame L_meanrun L_meanlaw L_est P_mean P_prob M_result S_stat L_stat P_stat S_pair L_pair L_pair2 P_pair.
From Verif Require P_euler P_tval.
Import ListNotations.
Open Scope R_scope.
Local Notation len := List.length.

Section Mirror.
Context {G I : Type}.
Variables (L : nat -> (G -> R) -> R) (normal : list nat -> G -> res (arr R) * G) (mvnormal : arr R -> list nat -> G -> res (arr R) * G).
Variables (c : R -> nat -> nat -> R) (n paths : nat) (vshape : list nat) (s : src (V := R) (G := G) (arr R)).
Hypothesis HS : noise_source L normal mvnormal true INone INone c n paths vshape s.
Let w := (vshape ++ [paths])%list.
Variables (x0 : arr R) (args : dict (M_sde.param R R)).
Hypothesis BX : broadcasts (shp x0) w.
Variables (pace_fn : list R -> list R) (fuel : nat) (gi : bool) (inf : I) (timeline : list R) (t0 : R) (d : nat).
Hypothesis V0 : valid_timeline timeline.
Hypothesis N0 : nth_error timeline 0 = Some t0.
Let N := len timeline.
Hypothesis HF : (N + len (pace_fn timeline) <= fuel)%nat.
Hypothesis Hd : (N + len (pace_fn timeline) <= d)%nat.
Variables (i : nat) (r : list nat) (j : nat).
Hypothesis Hi : (i < N)%nat.
Hypothesis Hr : inb vshape r.
Hypothesis Hj : (j < n)%nat.
Let ix := (r ++ [j])%list.
Let jx := (r ++ [(n + j)%nat])%list.
Hypothesis EX : bget x0 jx = bget x0 ix.

Lemma lin_mirror sde al ka b (HD : drift_noise_at w sde args al ka b) :
  (forall t, al t jx = al t ix) -> (forall t, ka t jx = ka t ix) -> (forall t, bget (b t) jx = bget (b t) ix) ->
  let run g := sde_call Rminus (mk_sde (I := I) dw_ids (dw_src (at_step s)) false sde gi vshape paths x0 args) 0 pace_fn fuel (g, inf) [N] timeline in
  forall g, value_at (run g) i ix + value_at (run g) i jx = 2 * L d (fun g => value_at (run g) i ix).
Proof using HS BX V0 N0 HF Hd Hi Hr Hj EX.
  intros SA SK SB run g.
  destruct (lin_pair (I := I) L normal mvnormal c n paths vshape s HS sde false gi x0 b args al ka BX HD pace_fn fuel inf timeline t0 V0 N0 HF) as (_ & _ & X & m & v & _ & R1 & R2 & R3 & _).
  assert (E1 := fun g => R1 g i r j Hi Hr Hj). cbv iota in E1. assert (E2 := R2 g i r j Hi Hr Hj EX SA SK SB). cbv iota in E2.
  assert (EM : L d (fun g => value_at (run g) i ix) = m i ix).
  { etransitivity; [apply (proj1 (proj1 HS) d); exact E1|]. etransitivity; [apply (R3 i ix (fun x => x) d Hi); [unfold ix; apply inb_app; [exact Hr|repeat constructor; exact Hj]|apply tame_cok, tame_id|exact Hd]|].
    rewrite (EN_ext _ (fun z => m i ix + sqrt (v i ix) * z + 0 * (z * z))) by (intro; ring). rewrite EN_poly. ring. }
  rewrite EM. etransitivity; [exact (f_equal2 Rplus (E1 g) E2)|]. unfold ix. ring.
Qed.

Theorem C83_oruh_mirror theta k sigma : var_arg args "theta" theta -> var_arg args "k" k -> var_arg args "sigma" sigma ->
  (forall t, broadcasts (shp (theta t)) w) -> (forall t, broadcasts (shp (k t)) w) -> (forall t, broadcasts (shp (sigma t)) w) ->
  (forall t, bget (theta t) jx = bget (theta t) ix /\ bget (k t) jx = bget (k t) ix /\ bget (sigma t) jx = bget (sigma t) ix) ->
  let run g := sde_call Rminus (ou_process (I := I) (at_step s) gi vshape paths x0 args) 0 pace_fn fuel (g, inf) [N] timeline in
  forall g, value_at (run g) i ix + value_at (run g) i jx = 2 * L d (fun g => value_at (run g) i ix).
Proof using HS BX V0 N0 HF Hd Hi Hr Hj EX.
  intros AT AK AS BT BK BS E. apply (lin_mirror ou_sde _ _ _ (ou_drift_at w args _ _ _ AT AK AS BT BK BS)); intro t; destruct (E t) as (E1 & E2 & E3); cbv beta; rewrite ?E1, ?E2, ?E3; reflexivity.
Qed.
Theorem C83_wiener_var_mirror mu sigma : var_arg args "mu" mu -> var_arg args "sigma" sigma ->
  (forall t, broadcasts (shp (mu t)) w) -> (forall t, broadcasts (shp (sigma t)) w) ->
  (forall t, bget (mu t) jx = bget (mu t) ix /\ bget (sigma t) jx = bget (sigma t) ix) ->
  let run g := sde_call Rminus (wiener_process (I := I) (at_step s) gi vshape paths x0 args) 0 pace_fn fuel (g, inf) [N] timeline in
  forall g, value_at (run g) i ix + value_at (run g) i jx = 2 * L d (fun g => value_at (run g) i ix).
Proof using HS BX V0 N0 HF Hd Hi Hr Hj EX.
  intros AM AS BM BS E. apply (lin_mirror wiener_sde _ _ _ (wiener_drift_at w args _ _ AM AS BM BS)); intro t; destruct (E t) as (E1 & E2); first [exact E1|exact E2|reflexivity].
Qed.
End Mirror.

Lemma half_sum a b m : a + b = 2 * m -> (a + b) / 2 = m.
Proof. lra. Qed.
Section Limits.
Variables (n paths : nat) (vshape : list nat).
Let w := (vshape ++ [paths])%list.
Let ic := fun (_ : R) (i j : nat) => if Nat.eq_dec i j then 1 else 0.
(** all runs, whatever the generator's state, give averages of mirrored paths near to the mean of the process *)
Theorem C83_oruh_limit (x0 : arr R) (theta k sigma : R -> arr R) t0 T ti r j eps :
  let ix := (r ++ [j])%list in let jx := (r ++ [(n + j)%nat])%list in
  continuous_array w theta -> continuous_array w k -> continuous_array w sigma -> broadcasts (shp x0) w -> 0 <= T -> t0 <= ti -> inb vshape r -> (j < n)%nat -> 0 < eps ->
  bget x0 jx = bget x0 ix -> (forall t, bget (theta t) jx = bget (theta t) ix /\ bget (k t) jx = bget (k t) ix /\ bget (sigma t) jx = bget (sigma t) ix) ->
  exists delta, 0 < delta /\ forall (G I : Type) (L : nat -> (G -> R) -> R) normal mvnormal s gi args pace_fn fuel (inf : I) (timeline : list R) h d i,
  let N := len timeline in
  noise_source L normal mvnormal true INone INone ic n paths vshape s -> var_arg args "theta" theta -> var_arg args "k" k -> var_arg args "sigma" sigma ->
  stepped timeline (pace_fn timeline) t0 T h d -> h <= delta -> (N + len (pace_fn timeline) <= fuel)%nat -> nth_error timeline i = Some ti ->
  let run (g : G) := sde_call Rminus (ou_process (I := I) (at_step s) gi vshape paths x0 args) 0 pace_fn fuel (g, inf) [N] timeline in
  forall g, Rabs ((value_at (run g) i ix + value_at (run g) i jx) / 2 -
    linear_mean (bget x0 ix) (fun t => bget (k t) ix) (fun t => bget (k t) ix * bget (theta t) ix) t0 ti) <= eps.
Proof using.
  intros ix jx KT KK KS BX HT H0 Hr Hj EP EX E.
  destruct (Nat.eq_dec paths (2*n)) as [PN|PN].
  2: { exists 1. split; [lra|]. intros. exfalso. match goal with H : noise_source _ _ _ _ _ _ _ _ _ _ _ |- _ => destruct H as (_ & _ & _ & _ & _ & _ & Q & _) end. cbv iota in Q. congruence. }
  assert (HI : inb w ix) by (unfold w, ix; apply inb_app; [exact Hr|]; rewrite PN; repeat constructor; lia).
  destruct (oruh_near true n paths vshape x0 theta k sigma t0 T ti ix eps KT KK KS BX HT H0 HI EP) as (_ & delta & DP & H). exists delta. split; [exact DP|].
  intros G I L normal mvnormal s gi args pace_fn fuel inf timeline h d i N HS AT AK AS ST Hh HF Hi run g.
  destruct (H G I L normal mvnormal s gi args pace_fn fuel inf timeline h d i HS AT AK AS ST Hh HF Hi) as (m & v & _ & NM & _ & R).
  destruct ST as (V0 & N0 & _ & Hd & _). assert (LI : (i < N)%nat) by (apply nth_error_Some; rewrite Hi; discriminate).
  assert (Q := C83_oruh_mirror (I := I) L normal mvnormal _ n paths vshape s HS x0 args BX pace_fn fuel gi inf timeline t0 d V0 N0 HF Hd i r j LI Hr Hj EX theta k sigma AT AK AS (proj1 KT) (proj1 KK) (proj1 KS) E g).
  assert (EM : L d (fun g => value_at (run g) i ix) = m).
  { etransitivity; [exact (R (fun x => x) (tame_cok _ tame_id))|]. rewrite (EN_ext _ (fun z => m + sqrt v * z + 0 * (z * z))) by (intro; ring). rewrite EN_poly. ring. }
  assert (Q2 : (value_at (run g) i ix + value_at (run g) i jx) / 2 = m). { rewrite <- EM. exact (half_sum _ _ _ Q). }
  rewrite Q2. exact NM.
Qed.
(** constant parameters: the mean is oruh_mean *)
Theorem C83_oruh (x0 theta k sigma : arr R) t0 T ti r j eps :
  let ix := (r ++ [j])%list in let jx := (r ++ [(n + j)%nat])%list in
  broadcasts (shp theta) w -> broadcasts (shp k) w -> broadcasts (shp sigma) w -> broadcasts (shp x0) w -> 0 <= T -> t0 <= ti -> inb vshape r -> (j < n)%nat -> bget k ix <> 0 -> 0 < eps ->
  bget x0 jx = bget x0 ix -> bget theta jx = bget theta ix -> bget k jx = bget k ix -> bget sigma jx = bget sigma ix ->
  exists delta, 0 < delta /\ forall (G I : Type) (L : nat -> (G -> R) -> R) normal mvnormal s gi args pace_fn fuel (inf : I) (timeline : list R) h d i,
  let N := len timeline in
  noise_source L normal mvnormal true INone INone ic n paths vshape s -> const_arg args "theta" theta -> const_arg args "k" k -> const_arg args "sigma" sigma ->
  stepped timeline (pace_fn timeline) t0 T h d -> h <= delta -> (N + len (pace_fn timeline) <= fuel)%nat -> nth_error timeline i = Some ti ->
  let run (g : G) := sde_call Rminus (ou_process (I := I) (at_step s) gi vshape paths x0 args) 0 pace_fn fuel (g, inf) [N] timeline in
  forall g, Rabs ((value_at (run g) i ix + value_at (run g) i jx) / 2 - oruh_mean (bget x0 ix) (bget theta ix) (bget k ix) (bget sigma ix) (ti - t0)) <= eps.
Proof using.
  intros ix jx BT BK BS BX HT H0 Hr Hj K0 EP EX E1 E2 E3.
  assert (CA : forall a : arr R, broadcasts (shp a) w -> continuous_array w (fun _ => a)) by (intros a B; split; [auto|intros; apply continuous_const]).
  destruct (C83_oruh_limit x0 (fun _ => theta) (fun _ => k) (fun _ => sigma) t0 T ti r j eps (CA _ BT) (CA _ BK) (CA _ BS) BX HT H0 Hr Hj EP EX (fun _ => conj E1 (conj E2 E3))) as (delta & DP & H).
  exists delta. split; [exact DP|]. intros G I L normal mvnormal s gi args pace_fn fuel inf timeline h d i N HS AT AK AS ST Hh HF Hi run g.
  assert (Q := H G I L normal mvnormal s gi args pace_fn fuel inf timeline h d i HS (const_var _ _ _ AT) (const_var _ _ _ AK) (const_var _ _ _ AS) ST Hh HF Hi g). fold ix jx in Q.
  destruct (P_tval.C74_constant (bget x0 ix) (bget theta ix) (bget k ix) (bget sigma ix) (bget k ix) (bget k ix) (bget sigma ix * bget sigma ix) t0 ti ti H0 H0) as [M1 _].
  rewrite M1 in Q. exact Q.
Qed.
End Limits.
Print Assumptions C83_oruh_mirror.
Print Assumptions C83_wiener_var_mirror.
Print Assumptions C83_oruh_limit.
Print Assumptions C83_oruh.

Import P_tval.
(** an Ornstein-Uhlenbeck process from 5, with theta = 1, k = 2, sigma = 3, on 200 antithetic paths, with n steps from 0 to 1: for n large
    enough, values on paths 7 and 107 average to 1 + 4 exp(-2), up to 1/1000, in all runs *)
Definition ex_ou : dict (M_sde.param R R) := [("theta"%string, PConst (ascalar 1)); ("k"%string, PConst (ascalar 2)); ("sigma"%string, PConst (ascalar 3))].
Example C83_ex_oruh : exists n0 : nat, forall n s, (n0 <= n)%nat -> source_dw (the_normal []) (the_mvnormal []) (given_dw (the_normal []) (the_mvnormal []) true INone INone) INone INone 200 [] = Ok s ->
  let X g := value_at (sde_call Rminus (ou_process (I := unit) (at_step s) false [] 200 (ascalar 5) ex_ou) 0 (pace ex_linspace (StepsScalar (S n))) (n + 3) (g, tt) [2%nat] [0; 1]) 1 in
  forall g, Rabs ((X g [7%nat] + X g [107%nat]) / 2 - (1 + 4 * exp (- 2))) <= / 1000.
Proof.
  assert (B : forall x : R, broadcasts (shp (ascalar x)) ([] ++ [200%nat])) by (intro; apply ex_b).
  destruct (C83_oruh 100 200 [] (ascalar 5) (ascalar 1) (ascalar 2) (ascalar 3) 0 1 1 [] 7 (/1000) (B 1) (B 2) (B 3) (B 5) ltac:(lra) ltac:(lra) (Forall2_nil _) ltac:(lia)) as (delta & DP & H); try (cbn; lra); try reflexivity.
  destruct (archimed_cor1 delta DP) as (n0 & HN & PN). exists n0. intros n s Hn HS X g. assert (Pn : (0 < n)%nat) by lia. destruct (ex_steps n Pn) as [ST LP].
  assert (Q := H gen unit (the_law []) (the_normal []) (the_mvnormal []) s false ex_ou (pace ex_linspace (StepsScalar (S n))) (n + 3)%nat tt [0; 1] (1 / INR n) (n + 3)%nat 1%nat (ex_noise true 100 s HS) eq_refl eq_refl eq_refl ST).
  assert (Q2 : Rabs ((X g [7%nat] + X g [107%nat]) / 2 - oruh_mean 5 1 2 3 (1 - 0)) <= /1000).
  { apply Q; [|rewrite LP; cbn; lia|reflexivity]. unfold Rdiv. rewrite Rmult_1_l. apply Rle_trans with (/ INR n0); [|lra]. apply Rinv_le_contravar; [apply lt_0_INR; lia|apply le_INR; lia]. }
  replace (1 + 4 * exp (- 2)) with (oruh_mean 5 1 2 3 (1 - 0)); [exact Q2|]. unfold oruh_mean. set (e1 := exp _). set (e2 := exp _). assert (E : e1 = e2) by (unfold e1, e2; f_equal; ring). rewrite E. ring.
Qed.
