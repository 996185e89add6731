(** Lemmas on statistics of simulated processes. *)
From Coq Require Import String List Arith Bool ZArith Reals Lra Lia.
From Coquelicot Require Import Coquelicot.
From Verif Require Import Base BaseNum BaseOrd BaseArr BaseNd BaseIdx M_paths M_sde M_process S_process L_nd L_process P_process P_process3 M_mc S_mc L_mc P_mc
  S_rv S_law S_euler S_gval L_gval L_gval2 L_gop S_mean L_cok L_tame L_meanlaw L_est M_result S_stat.
Import ListNotations.
Local Open Scope R_scope.
Local Notation len := List.length.

(** *** the process given by a call *)
Lemma result_ok {S} w timeline (s : S) xx : timeline <> [] -> len xx = len timeline ->
  exists p, sde_process w timeline (Ok (s, xx)) = Ok (s, p) /\ wf p /\ pt p = timeline /\ comp p = w /\
    forall i ix, dat (px p) (i :: ix) = value_at (Ok (s, xx)) i ix.
Proof.
  intros NE LE. unfold sde_process, sde_result, process_new. cbv beta iota delta [rbind]. cbn [tt_array shp]. cbn [List.length]. unfold size. cbn [fold_right].
  assert (LP : (0 < len timeline)%nat) by (destruct timeline; [contradiction|cbn; lia]).
  destruct (Nat.eqb_spec (len timeline * 1) 0) as [Z|_]; [lia|]. cbn [Nat.ltb Nat.leb orb given Nat.add Nat.eqb negb].
  assert (ET : map (fun i => dat (tt_array timeline) [i]) (seq 0 (len timeline)) = timeline).
  { unfold tt_array. cbn [dat hd]. apply (nth_ext _ _ 0 0); [rewrite map_length, seq_length; reflexivity|]. rewrite map_length, seq_length. intros k Hk.
    apply nth_map_seq. exact Hk. }
  rewrite ET. rewrite process_from_total by (exists w; cbn [xx_array shp]; rewrite LE; reflexivity).
  eexists. split; [reflexivity|]. split; [split; [exact NE|exists w; cbn [px pt xx_array shp]; rewrite LE; reflexivity]|]. split; [reflexivity|]. split; [reflexivity|]. reflexivity.
Qed.

Lemma norm_last n : norm_index (n + 1) (-1) = Some n.
Proof.
  unfold norm_index. destruct (Z.leb_spec 0 (-1)); [lia|]. cbn [andb]. destruct (Z.leb_spec (- Z.of_nat (n + 1)) (-1)); [|lia]. destruct (Z.ltb_spec (-1) 0); [|lia]. cbn [andb]. f_equal. lia.
Qed.
(** *** statistics as averages *)
Lemma total_rsum {A} (f : A -> R) l : fold_right Rplus 0 (map f l) = rsum f l.
Proof. reflexivity. Qed.
Lemma rsum_squares {A} (f : A -> R) l : 0 <= rsum (fun a => f a ^2) l.
Proof. unfold rsum. induction l as [|a l IH]; cbn [map fold_right]; [lra|]. apply Rplus_le_le_0_compat; [apply pow2_ge_0|exact IH]. Qed.
Section One.
Variables (p : proc R) (vshape : list nat) (P i : nat) (r : list nat) (x : nat -> R).
Hypothesis W : wf p.
Hypothesis CP : comp p = (vshape ++ [P])%list.
Hypothesis LI : (i < len (pt p))%nat.
Hypothesis HR : inb vshape r.
Hypothesis HX : forall j, (j < P)%nat -> dat (px p) (i :: r ++ [j]) = x j.
Lemma sample_is : sample p None [i] r = map x (seq 0 P).
Proof using W CP HX. clear LI HR. unfold sample. rewrite (comp_paths p vshape P W CP). apply map_ext_in. intros j Hj. apply in_seq in Hj. apply HX. lia. Qed.
Lemma nmean_is : nmean (map x (seq 0 P)) = rsum x (seq 0 P) / INR P.
Proof using. unfold nmean. rewrite nsum_R, map_length, seq_length. reflexivity. Qed.
Lemma pmean_is : entry_of (psummary false nmean p) (i :: r ++ [0%nat]) = rsum x (seq 0 P) / INR P.
Proof using W CP HX.
  clear LI HR.  destruct (C42_paths false nmean p vshape P W CP ltac:(discriminate)) as (q & -> & _ & _ & _ & E). cbn [entry_of]. rewrite E, sample_is. apply nmean_is.
Qed.
Lemma pvar_is ddof : entry_of (psummary false (nvar ddof) p) (i :: r ++ [0%nat]) = rsum (fun j => (x j - rsum x (seq 0 P) / INR P)^2) (seq 0 P) / INR (P - ddof).
Proof using W CP HX.
  clear LI HR.  destruct (C42_paths false (nvar ddof) p vshape P W CP ltac:(discriminate)) as (q & -> & _ & _ & _ & E). cbn [entry_of]. rewrite E, sample_is. unfold nvar. rewrite nmean_is, map_map, nsum_R, map_length, seq_length.
  change (ndiv (V := R)) with Rdiv. change (nofnat (V := R)) with INR. f_equal. rewrite total_rsum. apply rsum_ext. intros j _. change (nmul (V := R)) with Rmult. change (nsub (V := R)) with Rminus. ring.
Qed.
Lemma cdf_is y jx : inb (shp y) jx -> array_at 0 (cdf p None (Some y)) (i :: jx ++ r) = rsum (fun j => at_most (dat y jx) (x j)) (seq 0 P) / INR P.
Proof using W CP HX LI HR.
  intro HJ. destruct (C41_cdf p None y vshape P W CP) as (f & -> & _ & E). cbn [array_at]. change (i :: jx ++ r)%list with ([i] ++ jx ++ r)%list. rewrite (E [i] jx r) by (auto; repeat constructor; exact LI).
  rewrite sample_is. unfold fraction. rewrite map_length, seq_length. f_equal. generalize (seq 0 P). intro l. induction l as [|a l IH]; [reflexivity|]. cbn [map filter].
  change (rsum (fun j => at_most (dat y jx) (x j)) (a :: l)) with (at_most (dat y jx) (x a) + rsum (fun j => at_most (dat y jx) (x j)) l). unfold at_most at 1.
  destruct (Rle_dec (x a) (dat y jx)); cbn [List.length]; [rewrite S_INR|]; rewrite IH; ring.
Qed.
Lemma chf_is u jx : inb (shp u) jx -> array_at (RtoC 0) (chf cis caverage p None (Some u)) (i :: jx ++ r) =
  (rsum (fun j => cos (dat u jx * x j)) (seq 0 P) / INR P, rsum (fun j => sin (dat u jx * x j)) (seq 0 P) / INR P).
Proof using W CP HX LI HR.
  intro HJ. destruct (C41_chf p None u vshape P W CP) as (f & -> & _ & E). cbn [array_at]. change (i :: jx ++ r)%list with ([i] ++ jx ++ r)%list. rewrite (E [i] jx r) by (auto; repeat constructor; exact LI).
  rewrite sample_is. unfold caverage. rewrite !map_map, map_length, seq_length.
  assert (EQ : forall l, fold_right Cplus (RtoC 0) (map (fun j => cis (dat u jx * x j)) l) = (rsum (fun j => cos (dat u jx * x j)) l, rsum (fun j => sin (dat u jx * x j)) l)).
  { induction l as [|a l IH]; [reflexivity|]. cbn [map fold_right]. rewrite IH. reflexivity. }
  rewrite EQ. unfold Cdiv, RtoC, Cinv, Cmult. cbn [fst snd]. destruct (Req_dec (INR P) 0) as [Z|NZ].
  - rewrite Z. unfold Rdiv. rewrite Rinv_0. f_equal; ring.
  - f_equal; field; auto.
Qed.
(** montecarlo objects *)
Variables (auto : string -> list R -> option (R * R) -> res nat) (bins : bspec R) (range : option (R * R)) (f : R -> R).
Hypothesis BF : bins_for vshape bins.
Hypothesis HP : (0 < P)%nat.
Let X := at_point f p i.
Let y j := f (x j).
Lemma sample_good : sample_ok "all" vshape (X, (-1)%Z).
Proof using CP HP.
  clear LI HR HX W BF.  exists P. split; [|split; [exact HP|left; reflexivity]]. exists (len vshape). unfold axis_of, X, at_point. cbn [fst snd shp]. rewrite CP. split.
  - destruct (vshape ++ [P])%list eqn:Q; [destruct vshape; discriminate|]. rewrite <- Q. rewrite app_length. cbn [List.length]. rewrite norm_last. reflexivity.
  - destruct (vshape ++ [P])%list eqn:Q; [destruct vshape; discriminate|]. rewrite <- Q. split.
    + unfold del_at. rewrite firstn_app, Nat.sub_diag, firstn_all. cbn [firstn]. rewrite app_nil_r, skipn_all2 by (rewrite app_length; cbn; lia). apply app_nil_r.
    + rewrite app_nth2, Nat.sub_diag by lia. reflexivity.
Qed.
Lemma data_is : data_of "all" [(X, (-1)%Z)] r = map y (seq 0 P).
Proof using CP HX HR.
  clear LI W BF HP.  unfold data_of. cbn [flat_map]. rewrite app_nil_r. unfold seen. cbn [String.eqb Ascii.eqb Bool.eqb]. unfold values, axis_of, X, at_point. cbn [fst snd shp]. rewrite CP.
  destruct (vshape ++ [P])%list eqn:Q; [destruct vshape; discriminate|]. rewrite <- Q. rewrite app_length. cbn [List.length]. rewrite norm_last.
  rewrite app_nth2, Nat.sub_diag by lia. cbn [nth]. apply map_ext_in. intros j Hj. apply in_seq in Hj. cbn [dat]. unfold y. f_equal. rewrite <- HX by lia. do 2 f_equal.
  unfold ins_at. rewrite <- (inb_length _ _ HR), firstn_all, skipn_all. reflexivity.
Qed.
Lemma mc_is : mc_done auto bins range X ->
  mc_mean_at auto bins range X r = rsum y (seq 0 P) / INR P /\
  mc_var_at auto bins range X r = rsum (fun j => (y j - rsum y (seq 0 P) / INR P)^2) (seq 0 P) / INR P /\
  ((2 <= P)%nat -> mc_stderr_at auto bins range X r = sqrt (rsum (fun j => (y j - rsum y (seq 0 P) / INR P)^2) (seq 0 P) / INR P / (INR P - 1))).
Proof using CP HX HR BF HP.
  clear LI.  intros (n & a & E). assert (NE : [(X, (-1)%Z)] <> []) by discriminate. assert (FS : List.Forall (sample_ok "all" vshape) [(X, (-1)%Z)]) by (repeat constructor; apply sample_good).
  destruct (C44_statistics auto "all" bins range vshape _ n a BF NE FS E) as (mean & var & std & skew & kurt & EM & EV & _ & _ & _ & _ & _ & _ & _ & _ & D).
  destruct (C44_stderr auto "all" bins range vshape _ n a BF NE FS E) as [_ SE].
  specialize (D r HR). cbv zeta in D. rewrite data_is in D. destruct D as (LN & DM & _ & D1 & D2). rewrite map_length, seq_length in LN. subst n.
  unfold mc_mean_at, mc_var_at, mc_stderr_at. rewrite E. cbn [fst snd]. rewrite EM, EV. cbn [array_at].
  assert (AV : forall h : nat -> R, S_mc.average (map h (seq 0 P)) = rsum h (seq 0 P) / INR P).
  { intro h. rewrite <- nmean_average. unfold nmean. rewrite nsum_R, map_length, seq_length. reflexivity. }
  assert (CV : central 2 (map y (seq 0 P)) = rsum (fun j => (y j - rsum y (seq 0 P) / INR P)^2) (seq 0 P) / INR P).
  { unfold central. rewrite map_map, AV. rewrite AV. reflexivity. }
  split; [rewrite DM; apply AV|]. split.
  - destruct (Nat.lt_ge_cases P 2) as [L2|L2].
    + destruct (D1 L2) as [-> _]. replace P with 1%nat by lia. unfold rsum. cbn [seq map fold_right INR]. field.
    + destruct (D2 L2) as [-> _]. exact CV.
  - intro P2. destruct (SE P2) as (e & EE & _ & ES). rewrite EE. rewrite (ES r HR), data_is, CV. reflexivity.
Qed.
End One.

(** *** their means *)
Section Means.
Context {G : Type}.
Variables (E : (G -> R) -> R) (vshape : list nat) (P : nat) (X : G -> list nat -> R) (val : R -> R) (mu v : list nat -> R).
Let w := (vshape ++ [P])%list.
Hypothesis EE : forall f h, (forall g, f g = h g) -> E f = E h.
Hypothesis SUM : forall K u f, (forall k ix, (k < K)%nat -> inb w ix -> cok (fun x => f k ix (val x))) ->
  E (fun g => rsum (fun k => u k * rprod (fun ix => f k ix (X g ix)) (ndindex w)) (seq 0 K)) =
  rsum (fun k => u k * rprod (fun ix => EN (fun z => f k ix (val (mu ix + sqrt (v ix) * z)))) (ndindex w)) (seq 0 K).
Variables (p : G -> proc R) (i : nat) (r : list nat) (m0 v0 : R).
Hypothesis HP : (0 < P)%nat.
Hypothesis HR : inb vshape r.
Hypothesis PG : forall g, wf (p g) /\ comp (p g) = w /\ (i < len (pt (p g)))%nat /\ forall ix, inb w ix -> dat (px (p g)) (i :: ix) = X g ix.
Hypothesis IS : forall j, (j < P)%nat -> mu (r ++ [j]) = m0 /\ v (r ++ [j]) = v0.
Let law (f : R -> R) := EN (fun z => f (val (m0 + sqrt v0 * z))).
Lemma on_path j : (j < P)%nat -> inb w (r ++ [j]).
Proof using HR. intro Hj. apply inb_app; auto. repeat constructor. exact Hj. Qed.
Section F.
Variable f : R -> R.
Hypothesis TF : cok (fun x => f (val x)).
Hypothesis TF2 : cok (fun x => f (val x) * f (val x)).
Let est g := rsum (fun j => f (X g (r ++ [j]))) (seq 0 P) / INR P.
Lemma est_mean : E est = law f /\ E (fun g => (est g - law f)^2) = (law (fun x => f x * f x) - law f ^2) / INR P /\
  forall c, E (fun g => c * rsum (fun j => (f (X g (r ++ [j])) - est g)^2) (seq 0 P)) = c * ((INR P - 1) * (law (fun x => f x * f x) - law f ^2)).
Proof using EE SUM HP HR IS TF TF2.
  assert (A : forall j, (j < P)%nat -> inb w (r ++ [j]) /\ mu (r ++ [j]) = m0 /\ v (r ++ [j]) = v0) by (intros j Hj; split; [apply on_path; exact Hj|apply IS; exact Hj]).
  assert (B : forall a b, (a < P)%nat -> (b < P)%nat -> (r ++ [a])%list = (r ++ [b])%list -> a = b) by (intros a b _ _ Q; apply app_inv_head in Q; injection Q; auto).
  destruct (average E w X val mu v EE SUM P (fun j => r ++ [j])%list f m0 v0 HP A B TF TF2) as [A1 A2].
  split; [exact A1|]. split; [exact A2|]. exact (spread E w X val mu v EE SUM P (fun j => r ++ [j])%list f m0 v0 HP A B TF TF2).
Qed.
(** montecarlo objects *)
Variables (auto : string -> list R -> option (R * R) -> res nat) (bins : bspec R) (range : option (R * R)).
Hypothesis BF : bins_for vshape bins.
Hypothesis MC : forall g, mc_done auto bins range (at_point f (p g) i).
Lemma mc_mean_est : E (fun g => mc_mean_at auto bins range (at_point f (p g) i) r) = law f /\ E (fun g => (mc_mean_at auto bins range (at_point f (p g) i) r - law f)^2) = (law (fun x => f x * f x) - law f ^2) / INR P /\ E (fun g => mc_var_at auto bins range (at_point f (p g) i) r) = (law (fun x => f x * f x) - law f ^2) * (INR P - 1) / INR P /\ ((2 <= P)%nat -> E (fun g => mc_stderr_at auto bins range (at_point f (p g) i) r ^2) = (law (fun x => f x * f x) - law f ^2) / INR P).
Proof using EE SUM HP HR IS TF TF2 PG BF MC.
  destruct est_mean as (M1 & M2 & M3). assert (PP : 0 < INR P) by (apply lt_0_INR; exact HP).
  assert (Q : forall g, _) by exact (fun g => mc_is (p g) vshape P i r (fun j => X g (r ++ [j])) (proj1 (proj2 (PG g))) HR (fun j Hj => proj2 (proj2 (proj2 (PG g))) _ (on_path j Hj)) auto bins range f BF HP (MC g)).
  split; [|split; [|split]].
  - rewrite <- M1. apply EE. intro g. apply Q.
  - rewrite <- M2. apply EE. intro g. destruct (Q g) as (-> & _). reflexivity.
  - transitivity (/ INR P * ((INR P - 1) * (law (fun x => f x * f x) - law f ^2))); [|field; lra]. rewrite <- M3. apply EE. intro g. destruct (Q g) as (_ & -> & _). unfold est. field. lra.
  - intro P2. assert (P1 : 1 < INR P) by (apply (lt_INR 1 P); lia). transitivity (/ (INR P * (INR P - 1)) * ((INR P - 1) * (law (fun x => f x * f x) - law f ^2))); [|field; lra]. rewrite <- M3. apply EE. intro g.
    destruct (Q g) as (_ & _ & ->); [|exact P2]. rewrite <- Rsqr_pow2, Rsqr_sqrt; [unfold est; field; lra|].
    repeat (apply Rmult_le_pos; [|left; apply Rinv_0_lt_compat; lra]). apply rsum_squares.
Qed.
End F.
(** summaries of the process *)
Lemma pmean_est : cok val -> cok (fun x => val x * val x) -> let V := law (fun x => x * x) - law (fun x => x) ^2 in
  let ave g := entry_of (psummary false nmean (p g)) (i :: r ++ [0%nat]) in let var k g := entry_of (psummary false (nvar k) (p g)) (i :: r ++ [0%nat]) in
  E ave = law (fun x => x) /\ E (fun g => (ave g - law (fun x => x))^2) = V / INR P /\ forall k, (k < P)%nat -> E (var k) = V * (INR P - 1) / (INR P - INR k).
Proof using EE SUM HP HR IS PG.
  intros T1 T2 V ave var. destruct (est_mean (fun x => x) T1 T2) as (M1 & M2 & M3).
  assert (Q : forall g, ave g = rsum (fun j => X g (r ++ [j])) (seq 0 P) / INR P).
  { intro g. apply (pmean_is (p g) vshape P i r (fun j => X g (r ++ [j])) (proj1 (PG g)) (proj1 (proj2 (PG g)))). intros j Hj. apply PG, on_path, Hj. }
  split; [rewrite <- M1; apply EE; exact Q|]. split; [etransitivity; [|exact M2]; apply EE; intro g; rewrite Q; reflexivity|].
  intros k Hk. assert (KP : 0 < INR P - INR k) by (apply lt_INR in Hk; lra). transitivity (/ (INR P - INR k) * ((INR P - 1) * V)); [|field; lra]. etransitivity; [|exact (M3 _)]. apply EE. intro g.
  unfold var. rewrite (pvar_is (p g) vshape P i r (fun j => X g (r ++ [j])) (proj1 (PG g)) (proj1 (proj2 (PG g)))) by (intros j Hj; apply PG, on_path, Hj).
  rewrite minus_INR by lia. unfold Rdiv at 1. apply Rmult_comm.
Qed.
Lemma cdf_est y jx : inb (shp y) jx -> cok (fun x => at_most (dat y jx) (val x)) -> let q := law (at_most (dat y jx)) in
  let frac g := array_at 0 (cdf (p g) None (Some y)) (i :: jx ++ r) in E frac = q /\ E (fun g => (frac g - q)^2) = q * (1 - q) / INR P.
Proof using EE SUM HP HR IS PG.
  intros HJ TC q frac. assert (SQ : forall x, at_most (dat y jx) x * at_most (dat y jx) x = at_most (dat y jx) x) by (intro x; unfold at_most; destruct (Rle_dec x (dat y jx)); ring).
  destruct (est_mean (at_most (dat y jx)) TC) as (M1 & M2 & _). { eapply cok_ext; [|exact TC]. intro x. cbv beta. symmetry. apply SQ. }
  assert (Q : forall g, frac g = rsum (fun j => at_most (dat y jx) (X g (r ++ [j]))) (seq 0 P) / INR P).
  { intro g. apply (cdf_is (p g) vshape P i r (fun j => X g (r ++ [j])) (proj1 (PG g)) (proj1 (proj2 (PG g))) (proj1 (proj2 (proj2 (PG g)))) HR); [|exact HJ]. intros j Hj. apply PG, on_path, Hj. }
  split; [unfold q; rewrite <- M1; apply EE; exact Q|].
  rewrite (EE _ (fun g => (rsum (fun j => at_most (dat y jx) (X g (r ++ [j]))) (seq 0 P) / INR P - law (at_most (dat y jx)))^2)) by (intro g; rewrite Q; reflexivity).
  rewrite M2. unfold q, law. rewrite (EN_ext (fun z => at_most (dat y jx) (val (m0 + sqrt v0 * z)) * at_most (dat y jx) (val (m0 + sqrt v0 * z))) (fun z => at_most (dat y jx) (val (m0 + sqrt v0 * z)))) by (intro; apply SQ). unfold Rdiv. ring.
Qed.
Lemma chf_est u jx : inb (shp u) jx -> (forall a, tame (fun x => cos (a * val x))) -> (forall a, tame (fun x => sin (a * val x))) ->
  let c g := array_at (RtoC 0) (chf cis caverage (p g) None (Some u)) (i :: jx ++ r) in
  E (fun g => fst (c g)) = law (fun x => cos (dat u jx * x)) /\ E (fun g => snd (c g)) = law (fun x => sin (dat u jx * x)).
Proof using EE SUM HP HR IS PG.
  intros HJ TC TS c.
  destruct (est_mean (fun x => cos (dat u jx * x)) (tame_cok _ (TC _)) (tame_cok _ (tame_mult _ _ (TC _) (TC _)))) as (M1 & _).
  destruct (est_mean (fun x => sin (dat u jx * x)) (tame_cok _ (TS _)) (tame_cok _ (tame_mult _ _ (TS _) (TS _)))) as (M2 & _).
  assert (Q : forall g, c g = (rsum (fun j => cos (dat u jx * X g (r ++ [j]))) (seq 0 P) / INR P, rsum (fun j => sin (dat u jx * X g (r ++ [j]))) (seq 0 P) / INR P)).
  { intro g. apply (chf_is (p g) vshape P i r (fun j => X g (r ++ [j])) (proj1 (PG g)) (proj1 (proj2 (PG g))) (proj1 (proj2 (proj2 (PG g)))) HR); [|exact HJ]. intros j Hj. apply PG, on_path, Hj. }
  split; [rewrite <- M1|rewrite <- M2]; apply EE; intro g; rewrite Q; reflexivity.
Qed.
End Means.
