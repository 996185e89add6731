(** Lemmas on linear interpolation and on density histograms. *)
From Coq Require Import List Arith Bool Lia ZArith Reals Lra.
From Verif Require Import Base BaseNum BaseArr BaseNd M_mc S_mc L_nd L_mc.
Import ListNotations.
Local Open Scope R_scope.

Lemma nlt_R x y : nlt (V := R) x y = true <-> x < y.
Proof. simpl. destruct (Rlt_dec x y); split; intro; auto; try discriminate; contradiction. Qed.
Lemma nlt_R_false x y : nlt (V := R) x y = false <-> y <= x.
Proof. simpl. destruct (Rlt_dec x y); split; intro; auto; try discriminate; lra. Qed.
Lemma last_nth (l : list R) d : last l d = nth (length l - 1) l d.
Proof. induction l as [|x [|y l] IH]; auto. change (last (x :: y :: l) d) with (last (y :: l) d). rewrite IH. simpl. rewrite Nat.sub_0_r. reflexivity. Qed.

Lemma search_left_spec xx x : (search_left (V := R) xx x <= length xx)%nat /\
  (forall j, (j < search_left xx x)%nat -> nth j xx 0 < x) /\ ((search_left xx x < length xx)%nat -> x <= nth (search_left xx x) xx 0).
Proof.
  induction xx as [|y xx IH]; simpl; [repeat split; intros; lia|]. destruct IH as (I1 & I2 & I3). destruct (Rlt_dec y x) as [L|L].
  - split; [lia|]. split; [|intro; apply I3; lia]. intros [|j] Hj; auto. apply I2. lia.
  - split; [lia|]. split; [intros; lia|]. intros. lra.
Qed.

Definition line (xx pp : list R) (i : nat) (x : R) : R :=
  (nth i pp 0 - nth (i - 1) pp 0)/(nth i xx 0 - nth (i - 1) xx 0) * (x - nth (i - 1) xx 0) + nth (i - 1) pp 0.

Lemma interp_low xx pp lo hi x : x < nth 0 xx 0 -> interp_linear xx pp lo hi x = lo.
Proof. intro H. unfold interp_linear. apply nlt_R in H. simpl nzero. rewrite H. reflexivity. Qed.
Lemma interp_high xx pp lo hi x : increasing xx -> (0 < length xx)%nat -> last xx 0 < x -> interp_linear xx pp lo hi x = hi.
Proof.
  intros I N H. unfold interp_linear. replace (nlt x (nth 0 xx nzero)) with false.
  - apply nlt_R in H. simpl nzero. rewrite H. reflexivity.
  - symmetry. apply nlt_R_false. simpl nzero. rewrite last_nth in H. destruct (Nat.eq_dec (length xx) 1) as [E|E]; [rewrite E in H; simpl in H; lra|].
    specialize (I 0%nat (length xx - 1)%nat ltac:(lia) ltac:(lia)). lra.
Qed.
Lemma interp_in xx pp lo hi x i : increasing xx -> (1 <= i)%nat -> (i < length xx)%nat -> nth (i - 1) xx 0 <= x <= nth i xx 0 ->
  interp_linear xx pp lo hi x = line xx pp i x.
Proof.
  intros I I1 I2 [X1 X2]. unfold interp_linear. replace (nlt x (nth 0 xx nzero)) with false.
  2:{ symmetry. apply nlt_R_false. simpl nzero. destruct (Nat.eq_dec i 1) as [->|]; [simpl in X1; lra|]. specialize (I 0%nat (i - 1)%nat ltac:(lia) ltac:(lia)). lra. }
  replace (nlt (last xx nzero) x) with false.
  2:{ symmetry. apply nlt_R_false. simpl nzero. rewrite last_nth. destruct (Nat.eq_dec i (length xx - 1)) as [->|]; [auto|]. specialize (I i (length xx - 1)%nat ltac:(lia) ltac:(lia)). lra. }
  cbv zeta. destruct (search_left_spec xx x) as (S1 & S2 & S3). set (k := search_left xx x) in *. set (k' := Nat.min (Nat.max k 1) (length xx - 1)).
  change (line xx pp k' x = line xx pp i x).
  assert (K : (1 <= k')%nat /\ (k' < length xx)%nat) by (unfold k'; lia).
  assert (KX : nth (k' - 1) xx 0 <= x <= nth k' xx 0).
  { split.
    - destruct (Nat.eq_dec k' 1) as [E1|E1]; [rewrite E1; simpl; destruct (Nat.eq_dec i 1) as [->|]; [simpl in X1; lra|]; specialize (I 0%nat (i - 1)%nat ltac:(lia) ltac:(lia)); lra|].
      assert (nth (k' - 1) xx 0 < x) by (apply S2; unfold k' in *; lia). lra.
    - destruct (Nat.eq_dec k' (length xx - 1)) as [E1|E1].
      + rewrite E1. destruct (Nat.eq_dec i (length xx - 1)) as [->|]; [auto|]. specialize (I i (length xx - 1)%nat ltac:(lia) ltac:(lia)). lra.
      + destruct (Nat.eq_dec k 0) as [K0|K0].
        * assert (x <= nth 0 xx 0) by (rewrite K0 in S3; apply S3; lia). replace k' with 1%nat by (unfold k'; lia). specialize (I 0%nat 1%nat ltac:(lia) ltac:(lia)). lra.
        * replace k' with k by (unfold k' in *; lia). apply S3. unfold k' in *. lia. }
  clearbody k'. clear S1 S2 S3.
  (* two intervals containing x are the same, or adjacent with x their common point *)
  assert (D : k' = i \/ (k' = S i /\ x = nth i xx 0) \/ (i = S k' /\ x = nth k' xx 0)).
  { destruct (Nat.lt_trichotomy k' i) as [L|[E|L]]; [right; right|auto|right; left].
    - destruct (Nat.eq_dec i (S k')) as [E|E]; [|specialize (I k' (i - 1)%nat ltac:(lia) ltac:(lia)); lra]. split; auto. subst i. simpl in X1. rewrite Nat.sub_0_r in X1. lra.
    - destruct (Nat.eq_dec k' (S i)) as [E|E]; [|specialize (I i (k' - 1)%nat ltac:(lia) ltac:(lia)); lra]. split; auto. rewrite E in KX. simpl in KX. rewrite Nat.sub_0_r in KX. lra. }
  destruct D as [->|[[-> ->]|[-> ->]]]; auto; unfold line; simpl Nat.sub; rewrite ?Nat.sub_0_r.
  - pose proof (I (i - 1)%nat i ltac:(lia) ltac:(lia)). pose proof (I i (S i) ltac:(lia) ltac:(lia)). field. lra.
  - pose proof (I (k' - 1)%nat k' ltac:(lia) ltac:(lia)). pose proof (I k' (S k') ltac:(lia) ltac:(lia)). field. lra.
Qed.
Lemma line_at xx pp i : nth (i - 1) xx 0 < nth i xx 0 -> line xx pp i (nth i xx 0) = nth i pp 0 /\ line xx pp i (nth (i - 1) xx 0) = nth (i - 1) pp 0.
Proof. intro H. unfold line. split; field; lra. Qed.
(** the interval a point is in *)
Lemma find_interval xx x : increasing xx -> (2 <= length xx)%nat -> nth 0 xx 0 <= x -> x <= last xx 0 ->
  exists i, (1 <= i)%nat /\ (i < length xx)%nat /\ nth (i - 1) xx 0 <= x <= nth i xx 0.
Proof.
  intros I N H0 H1. rewrite last_nth in H1. assert (G : forall k, (1 <= k)%nat -> (k < length xx)%nat -> x <= nth k xx 0 -> exists i, (1 <= i)%nat /\ (i < length xx)%nat /\ nth (i - 1) xx 0 <= x <= nth i xx 0).
  { induction k as [|k IH]; intros K1 K2 K3; [lia|]. destruct (Nat.eq_dec k 0) as [->|]; [exists 1%nat; simpl in *; repeat split; auto; lia|].
    destruct (Rle_dec x (nth k xx 0)); [apply IH; auto; lia|]. exists (S k). simpl Nat.sub. rewrite Nat.sub_0_r. repeat split; auto; try lia; lra. }
  apply (G (length xx - 1)%nat); auto; lia.
Qed.
Lemma interp_node xx pp lo hi i : increasing xx -> (2 <= length xx)%nat -> (i < length xx)%nat -> interp_linear xx pp lo hi (nth i xx 0) = nth i pp 0.
Proof.
  intros I N H. destruct (Nat.eq_dec i 0) as [->|].
  - assert (L : nth (1 - 1) xx 0 < nth 1 xx 0) by (apply (I 0%nat 1%nat); lia). rewrite (interp_in xx pp lo hi _ 1); auto; [|simpl in *; lra]. change 0%nat with (1 - 1)%nat at 1 2. apply line_at. auto.
  - assert (L : nth (i - 1) xx 0 < nth i xx 0) by (apply I; lia). rewrite (interp_in xx pp lo hi _ i); auto; [|lia|lra]. apply line_at. auto.
Qed.
Lemma line_bounds xx pp i x (lo hi : R) : nth (i - 1) xx 0 < nth i xx 0 -> nth (i - 1) xx 0 <= x <= nth i xx 0 ->
  lo <= nth (i - 1) pp 0 <= hi -> lo <= nth i pp 0 <= hi -> lo <= line xx pp i x <= hi.
Proof.
  intros H [X1 X2] L1 L2. unfold line. set (a := nth (i - 1) xx 0) in *. set (b := nth i xx 0) in *. set (p := nth (i - 1) pp 0) in *. set (q := nth i pp 0) in *.
  replace ((q - p)/(b - a) * (x - a) + p) with (p * ((b - x)/(b - a)) + q * ((x - a)/(b - a))) by (field; lra).
  assert (U : 0 <= (b - x)/(b - a)) by (apply Rle_mult_inv_pos; lra). assert (W : 0 <= (x - a)/(b - a)) by (apply Rle_mult_inv_pos; lra).
  assert (E : (b - x)/(b - a) + (x - a)/(b - a) = 1) by (field; lra).
  set (u := (b - x)/(b - a)) in *. set (w := (x - a)/(b - a)) in *. clearbody u w. clear - U W E L1 L2. replace w with (1 - u) in * by lra. split; nra.
Qed.
Lemma interp_bounds xx pp (lo hi : R) x : increasing xx -> (2 <= length xx)%nat -> length pp = length xx ->
  (forall p, In p pp -> lo <= p <= hi) -> nth 0 xx 0 <= x <= last xx 0 -> forall a b, lo <= interp_linear xx pp a b x <= hi.
Proof.
  intros I N LP H [X1 X2] a b. destruct (find_interval xx x I N X1 X2) as (i & I1 & I2 & HX). rewrite (interp_in xx pp a b x i) by auto.
  apply line_bounds; auto; [apply I; lia| |]; apply H, nth_In; lia.
Qed.
Lemma interp_mono xx pp lo hi : increasing xx -> (2 <= length xx)%nat -> length pp = length xx ->
  (forall i j, (i <= j)%nat -> (j < length pp)%nat -> nth i pp 0 <= nth j pp 0) -> lo <= nth 0 pp 0 -> last pp 0 <= hi ->
  forall x y, x <= y -> interp_linear xx pp lo hi x <= interp_linear xx pp lo hi y.
Proof.
  intros I N LP MP L0 L1 x y XY. rewrite last_nth, LP in L1.
  assert (B : forall z, nth 0 xx 0 <= z <= last xx 0 -> lo <= interp_linear xx pp lo hi z <= hi).
  { intros z Hz. apply interp_bounds; auto. intros p Hp. destruct (In_nth _ _ 0 Hp) as (k & K1 & <-). split.
    - apply Rle_trans with (nth 0 pp 0); [auto|]. apply MP; lia.
    - apply Rle_trans with (nth (length xx - 1) pp 0); [|auto]. apply MP; lia. }
  assert (LH : lo <= hi) by (specialize (MP 0%nat (length xx - 1)%nat ltac:(lia) ltac:(lia)); lra).
  destruct (Rlt_dec x (nth 0 xx 0)) as [X0|X0].
  - rewrite (interp_low xx pp lo hi x) by auto. destruct (Rlt_dec y (nth 0 xx 0)) as [Y0|Y0]; [rewrite interp_low by auto; lra|].
    destruct (Rlt_dec (last xx 0) y) as [Y1|Y1]; [rewrite interp_high by (auto; lia); lra|]. apply B. lra.
  - destruct (Rlt_dec (last xx 0) y) as [Y1|Y1].
    + rewrite (interp_high xx pp lo hi y) by (auto; lia). destruct (Rlt_dec (last xx 0) x) as [X1|X1]; [rewrite interp_high by (auto; lia); lra|]. apply B. lra.
    + destruct (find_interval xx x I N) as (i & I1 & I2 & HX); try lra. destruct (find_interval xx y I N) as (j & J1 & J2 & HY); try lra.
      rewrite (interp_in xx pp lo hi x i), (interp_in xx pp lo hi y j) by auto.
      assert (Ei : nth (i - 1) xx 0 < nth i xx 0) by (apply I; lia). assert (Ej : nth (j - 1) xx 0 < nth j xx 0) by (apply I; lia).
      assert (Pi : nth (i - 1) pp 0 <= nth i pp 0) by (apply MP; lia). assert (Pj : nth (j - 1) pp 0 <= nth j pp 0) by (apply MP; lia).
      destruct (Nat.lt_trichotomy i j) as [L|[E|L]].
      * apply Rle_trans with (nth i pp 0); [apply (line_bounds xx pp i x (nth (i - 1) pp 0)); auto; lra|].
        apply Rle_trans with (nth (j - 1) pp 0); [apply MP; lia|]. apply (line_bounds xx pp j y (nth (j - 1) pp 0) (nth j pp 0)); auto; lra.
      * subst j. unfold line. apply Rplus_le_compat_r, Rmult_le_compat_l; [|lra]. apply Rle_mult_inv_pos; lra.
      * assert (x = nth (i - 1) xx 0 /\ y = x) as [E1 E2].
        { destruct (Nat.eq_dec j (i - 1)) as [->|]; [lra|]. specialize (I j (i - 1)%nat ltac:(lia) ltac:(lia)). lra. }
        assert (j = (i - 1)%nat) by (destruct (Nat.eq_dec j (i - 1)); auto; specialize (I j (i - 1)%nat ltac:(lia) ltac:(lia)); lra). subst j.
        rewrite E2, E1. replace (line xx pp i (nth (i - 1) xx 0)) with (nth (i - 1) pp 0) by (symmetry; apply line_at; auto).
        replace (line xx pp (i - 1) (nth (i - 1) xx 0)) with (nth (i - 1) pp 0) by (symmetry; apply line_at; auto). lra.
Qed.

(** *** density *)
Lemma ndiffl_length (e : list R) : length (ndiffl e) = (length e - 1)%nat.
Proof. induction e as [|x [|y e] IH]; auto. change (ndiffl (x :: y :: e)) with (y - x :: ndiffl (y :: e)). cbn [length] in *. lia. Qed.
Lemma ndiffl_nth (e : list R) j : (S j < length e)%nat -> nth j (ndiffl e) 0 = nth (S j) e 0 - nth j e 0.
Proof.
  revert j; induction e as [|x [|y e] IH]; intros j H; simpl in H; try lia. change (ndiffl (x :: y :: e)) with (y - x :: ndiffl (y :: e)).
  destruct j as [|j]; [reflexivity|]. cbn [nth] in *. rewrite IH by (simpl; lia). reflexivity.
Qed.
Lemma map_combine_nth {A B} (f : A * B -> R) l m j a b : length l = length m -> (j < length l)%nat -> nth j (map f (combine l m)) 0 = f (nth j l a, nth j m b).
Proof.
  intros L H. rewrite nth_indep with (d' := f (a, b)) by (rewrite map_length, combine_length; lia). rewrite map_nth. rewrite combine_nth by auto. reflexivity.
Qed.
Lemma midpoints_length (e : list R) : length (midpoints e) = (length e - 1)%nat.
Proof. destruct e as [|x e]; auto. unfold midpoints. rewrite map_length, combine_length. cbn [length]. lia. Qed.
Lemma midpoints_nth (e : list R) j : (S j < length e)%nat -> nth j (midpoints e) 0 = (nth j e 0 + nth (S j) e 0)/2.
Proof.
  intro H. destruct e as [|x e]; [simpl in H; lia|]. unfold midpoints. rewrite nth_indep with (d' := ndiv (nadd 0 0) ntwo) by (rewrite map_length, combine_length; cbn [length] in *; lia).
  rewrite (map_nth (fun p : R * R => ndiv (nadd (fst p) (snd p)) ntwo) _ (0, 0) j).
  assert (C : forall (l m : list R) k, (k < length m)%nat -> (k < length l)%nat -> nth k (combine l m) (0, 0) = (nth k l 0, nth k m 0)).
  { clear. induction l as [|a l IH]; intros [|b m] [|k] H1 H2; simpl in *; try lia; auto. apply IH; lia. }
  rewrite C by (cbn [length] in *; lia). reflexivity.
Qed.
Lemma cumsum_length acc (l : list R) : length (cumsum acc l) = length l.
Proof. revert acc; induction l; intro; simpl; auto. Qed.
Lemma cumsum_nth l : forall acc j, (j < length l)%nat -> nth j (cumsum (V := R) acc l) 0 = acc + total (firstn (S j) l).
Proof.
  induction l as [|x l IH]; intros acc j H; [simpl in H; lia|]. cbn [cumsum]. destruct j as [|j]; [simpl; lra|]. change (nth (S j) (nadd acc x :: cumsum (nadd acc x) l) 0) with (nth j (cumsum (acc + x) l) 0).
  rewrite IH by (simpl in H; lia). change (firstn (S (S j)) (x :: l)) with (x :: firstn (S j) l). simpl total. lra.
Qed.
Lemma cdf_points l j : (j <= length l)%nat -> nth j (0 :: cumsum (V := R) 0 l) 0 = total (firstn j l).
Proof. intro H. destruct j as [|j]; [reflexivity|]. change (nth (S j) (0 :: cumsum 0 l) 0) with (nth j (cumsum 0 l) 0). rewrite cumsum_nth by lia. lra. Qed.

Section Density.
Variables (counts : list Z) (edges : list R).
Hypothesis LE : length edges = S (length counts).
Hypothesis INC : increasing edges.
Hypothesis NN : forall z, In z counts -> (0 <= z)%Z.
Hypothesis POS : (0 < fold_right Z.add 0 counts)%Z.
Let S := IZR (fold_right Z.add 0%Z counts).

Lemma density_length : length (density IZR counts edges) = length counts.
Proof using LE. unfold density. rewrite map_length, combine_length, ndiffl_length. lia. Qed.
Lemma density_nth j : (j < length counts)%nat -> nth j (density IZR counts edges) 0 = IZR (nth j counts 0%Z) / S / (nth (j + 1) edges 0 - nth j edges 0).
Proof using LE.
  intro H. unfold density. rewrite (map_combine_nth _ counts (ndiffl edges) j 0%Z 0) by (rewrite ?ndiffl_length; lia). cbn [fst snd]. rewrite ndiffl_nth by lia. rewrite Nat.add_1_r. reflexivity.
Qed.
Lemma density_nonneg p : In p (density IZR counts edges) -> 0 <= p.
Proof using LE INC NN POS.
  intro H. destruct (In_nth _ _ 0 H) as (j & J & <-). rewrite density_length in J. rewrite density_nth by auto.
  assert (0 < S) by (apply (IZR_lt 0); auto). assert (0 <= IZR (nth j counts 0%Z)) by (apply (IZR_le 0), NN, nth_In; auto).
  apply Rle_mult_inv_pos; [apply Rle_mult_inv_pos; auto|]. specialize (INC j (j + 1)%nat ltac:(lia) ltac:(lia)). lra.
Qed.
(** the fractions of the bins *)
Lemma density_fractions : map (fun p => nmul (fst p) (snd p)) (combine (ndiffl edges) (density IZR counts edges)) = map (fun z => IZR z / S) counts.
Proof using LE INC.
  apply nth_ext with (d := 0) (d' := 0); [rewrite !map_length, combine_length, ndiffl_length, density_length; lia|].
  intros j Hj. rewrite map_length, combine_length, ndiffl_length, density_length in Hj.
  rewrite (map_combine_nth _ (ndiffl edges) (density IZR counts edges) j 0 0) by (rewrite ?ndiffl_length, ?density_length; lia). cbn [fst snd].
  rewrite ndiffl_nth, density_nth by lia. rewrite nth_indep with (l := map (fun z => IZR z / S) counts) (d' := (fun z => IZR z / S) 0%Z) by (rewrite map_length; lia).
  rewrite (map_nth (fun z => IZR z / S) counts 0%Z j). specialize (INC j (j + 1)%nat ltac:(lia) ltac:(lia)). rewrite Nat.add_1_r in *. simpl nmul. unfold Rdiv. rewrite <- (Rmult_comm (/ _)). rewrite <- Rmult_assoc. rewrite Rinv_r by lra. ring.
Qed.
Lemma total_fractions l : total (map (fun z => IZR z / S) l) = IZR (fold_right Z.add 0%Z l) / S.
Proof using. induction l as [|x l IH]; simpl; [unfold Rdiv; ring|]. rewrite IH, plus_IZR. unfold Rdiv. ring. Qed.
End Density.
