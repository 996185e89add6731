(** Properties of the montecarlo class: C47, distributions. *)
From Coq Require Import String List Arith Bool Lia ZArith Reals Lra.
From Coquelicot Require Import Coquelicot.
From Verif Require Import Base BaseNum BaseArr BaseNd M_mc S_mc L_nd L_mc L_mc2 L_mc3 L_interp P_mc.
Import ListNotations.
Local Open Scope R_scope.

Section P.
Variables (counts : list Z) (edges : list R).
Hypothesis LE : List.length edges = S (List.length counts).
Hypothesis INC : increasing edges.
Hypothesis NN : forall z, In z counts -> (0 <= z)%Z.
Hypothesis POS : (0 < fold_right Z.add 0 counts)%Z.

Lemma total_map_nth (l : list R) n : n = List.length l -> total l = total (map (fun j => nth j l 0) (seq 0 n)).
Proof.
  intros ->. f_equal. apply nth_ext with (d := 0) (d' := 0); [rewrite map_length, seq_length; auto|]. intros j Hj. rewrite nth_map_seq by auto. reflexivity.
Qed.
(** the density is non negative and integrates to 1 *)
Theorem C47_density : (forall p, In p (density IZR counts edges) -> 0 <= p) /\ List.length (density IZR counts edges) = List.length counts /\
  total (map (fun j => nth j (density IZR counts edges) 0 * (nth (j + 1) edges 0 - nth j edges 0)) (seq 0 (List.length counts))) = 1.
Proof using LE INC NN POS.
  split; [intros p; apply density_nonneg; auto|]. split; [apply density_length; auto|].
  pose proof (density_fractions counts edges LE INC) as F. pose proof (total_fractions counts counts) as T. rewrite <- F in T.
  assert (0 < IZR (fold_right Z.add 0%Z counts)) by (apply (IZR_lt 0); auto).
  unfold Rdiv in T. rewrite Rinv_r in T by lra. rewrite <- T. symmetry. rewrite (total_map_nth _ (List.length counts)) by (rewrite map_length, combine_length, ndiffl_length, density_length; auto; lia).
  f_equal. apply map_ext_in. intros j Hj. apply in_seq in Hj. rewrite (map_combine_nth _ (ndiffl edges) (density IZR counts edges) j 0 0) by (rewrite ?ndiffl_length, ?density_length; lia).
  cbn [fst snd]. rewrite ndiffl_nth by lia. rewrite Nat.add_1_r. apply Rmult_comm.
Qed.
Lemma nonneg_firstn j : (0 <= fold_right Z.add 0 (firstn j counts))%Z.
Proof using NN. revert NN. clear. revert j. induction counts as [|x l IH]; intros [|j] H; simpl; try lia. specialize (IH j (fun z Hz => H z (or_intror Hz))). specialize (H x (or_introl eq_refl)). lia. Qed.
Lemma points_ok j : (j <= List.length counts)%nat ->
  nth j (0 :: cumsum 0 (map (fun p => nmul (fst p) (snd p)) (combine (ndiffl edges) (density IZR counts edges)))) 0 = IZR (fold_right Z.add 0%Z (firstn j counts)) / IZR (fold_right Z.add 0%Z counts).
Proof using LE INC. intro H. rewrite density_fractions by auto. rewrite cdf_points by (rewrite map_length; auto). rewrite firstn_map. apply total_fractions. Qed.
Lemma firstn_mono i j : (i <= j)%nat -> (fold_right Z.add 0 (firstn i counts) <= fold_right Z.add 0 (firstn j counts))%Z.
Proof using NN.
  revert NN. clear. revert i j. induction counts as [|x l IH]; intros [|i] [|j] H L; simpl; try lia.
  - pose proof (H x (or_introl eq_refl)). assert (0 <= fold_right Z.add 0 (firstn j l))%Z; [|lia]. specialize (IH 0%nat j (fun z Hz => H z (or_intror Hz))). simpl in IH. apply IH. lia.
  - specialize (IH i j (fun z Hz => H z (or_intror Hz))). lia.
Qed.
(** the cdf: non decreasing, 0 before the first edge, 1 after the last one; at each edge, the fraction of counts before it; linear in between,
    with the density as its slope *)
Theorem C47_cdf : let F := cdf_interp (density IZR counts edges) edges in
  (forall x y, x <= y -> F x <= F y) /\ (forall x, x <= nth 0 edges 0 -> F x = 0) /\ (forall x, last edges 0 <= x -> F x = 1) /\
  (forall j, (j <= List.length counts)%nat -> F (nth j edges 0) = IZR (fold_right Z.add 0%Z (firstn j counts)) / IZR (fold_right Z.add 0%Z counts)) /\
  (forall j x, (j < List.length counts)%nat -> nth j edges 0 <= x <= nth (j + 1) edges 0 -> F x = F (nth j edges 0) + nth j (density IZR counts edges) 0 * (x - nth j edges 0)).
Proof using LE INC NN POS.
  intro F. assert (P0 : 0 < IZR (fold_right Z.add 0%Z counts)) by (apply (IZR_lt 0); auto).
  set (pp := 0 :: cumsum 0 (map (fun p => nmul (fst p) (snd p)) (combine (ndiffl edges) (density IZR counts edges)))).
  assert (LP : List.length pp = List.length edges).
  { unfold pp. cbn [List.length]. rewrite cumsum_length, map_length, combine_length, ndiffl_length, density_length by auto. lia. }
  assert (L2 : (2 <= List.length edges)%nat) by (destruct counts; [simpl in POS; lia|simpl in *; lia]).
  assert (MP : forall i j, (i <= j)%nat -> (j < List.length pp)%nat -> nth i pp 0 <= nth j pp 0).
  { intros i j IJ J. unfold pp. rewrite !points_ok by lia. apply Rmult_le_compat_r; [left; apply Rinv_0_lt_compat; auto|]. apply IZR_le, firstn_mono. auto. }
  assert (ND : forall j, (j <= List.length counts)%nat -> F (nth j edges 0) = IZR (fold_right Z.add 0%Z (firstn j counts)) / IZR (fold_right Z.add 0%Z counts)).
  { intros j Hj. unfold F, cdf_interp. rewrite interp_node; auto; [apply points_ok; auto|lia]. }
  assert (LASTP : last pp 0 = 1).
  { rewrite last_nth. unfold pp at 2. rewrite points_ok by lia. rewrite LP, LE. simpl Nat.sub. rewrite Nat.sub_0_r, firstn_all. field. lra. }
  split; [intros x y; apply (interp_mono edges pp); auto; [simpl; lra|simpl none; lra]|].
  split; [|split; [|split; [exact ND|]]].
  - intros x Hx. destruct (Req_dec x (nth 0 edges 0)) as [->|NE]; [rewrite ND by lia; simpl; lra|]. unfold F, cdf_interp. rewrite interp_low by lra. reflexivity.
  - intros x Hx. destruct (Req_dec x (last edges 0)) as [->|NE].
    + rewrite last_nth, LE. simpl Nat.sub. rewrite Nat.sub_0_r, ND, firstn_all by lia. field. lra.
    + unfold F, cdf_interp. rewrite interp_high by (auto; lia || lra). reflexivity.
  - intros j x Hj Hx. rewrite ND by lia. unfold F, cdf_interp. rewrite (interp_in _ _ _ _ _ (j + 1)) by (auto; try lia; replace (j + 1 - 1)%nat with j by lia; auto).
    unfold line. replace (j + 1 - 1)%nat with j by lia. fold pp. simpl nzero. fold pp. unfold pp. rewrite !points_ok by lia. rewrite density_nth by auto.
    pose proof (INC j (j + 1)%nat ltac:(lia) ltac:(lia)).
    assert (FS : (fold_right Z.add 0 (firstn (j + 1) counts) = fold_right Z.add 0 (firstn j counts) + nth j counts 0)%Z).
    { clear - Hj. revert j Hj. induction counts as [|z l IH]; intros [|j] Hj; simpl in *; try lia. rewrite IH by lia. lia. }
    rewrite FS, plus_IZR. field. split; lra.
Qed.
(** the pdf: non negative, the density at the center of each bin, 0 from the ends on *)
Theorem C47_pdf : let f := pdf_interp (density IZR counts edges) edges in
  (forall x, 0 <= f x) /\ (forall x, x <= nth 0 edges 0 -> f x = 0) /\ (forall x, last edges 0 <= x -> f x = 0) /\
  (forall j, (j < List.length counts)%nat -> f ((nth j edges 0 + nth (j + 1) edges 0)/2) = nth j (density IZR counts edges) 0).
Proof using LE INC NN POS.
  intro f. set (xx := nth 0 edges 0 :: midpoints edges ++ [last edges 0]). set (pp := 0 :: density IZR counts edges ++ [0]). set (n := List.length counts).
  assert (LX : List.length xx = (n + 2)%nat) by (unfold xx; cbn [List.length]; rewrite app_length, midpoints_length, LE; simpl; unfold n; lia).
  assert (LP : List.length pp = (n + 2)%nat) by (unfold pp; cbn [List.length]; rewrite app_length, density_length by auto; simpl; unfold n; lia).
  assert (N1 : (1 <= n)%nat) by (unfold n; destruct counts; [simpl in POS; lia|simpl; lia]).
  assert (XM : forall j, (j < n)%nat -> nth (S j) xx 0 = (nth j edges 0 + nth (j + 1) edges 0)/2).
  { intros j Hj. unfold xx. change (nth (S j) (?a :: ?b) 0) with (nth j b 0). cbn [nth]. rewrite app_nth1 by (rewrite midpoints_length; unfold n in *; lia). rewrite midpoints_nth by (unfold n in *; lia). rewrite Nat.add_1_r. reflexivity. }
  assert (XL : nth (S n) xx 0 = nth n edges 0).
  { unfold xx. cbn [nth]. rewrite app_nth2 by (rewrite midpoints_length; unfold n; lia). rewrite midpoints_length, LE. simpl Nat.sub. rewrite Nat.sub_0_r. fold n. rewrite Nat.sub_diag. cbn [nth]. rewrite last_nth, LE. f_equal. unfold n. lia. }
  assert (IX : increasing xx).
  { assert (STEP : forall k, (S k < List.length xx)%nat -> nth k xx 0 < nth (S k) xx 0).
    { intros k Hk. destruct k as [|k].
      - rewrite XM by lia. pose proof (INC 0%nat 1%nat ltac:(lia) ltac:(unfold n in *; lia)). change (nth 0 xx 0) with (nth 0 edges 0). simpl Nat.add. lra.
      - rewrite XM by lia. destruct (Nat.eq_dec (S k) n) as [E|E].
        + rewrite E, XL, Nat.add_1_r, E. pose proof (INC k n ltac:(lia) ltac:(unfold n in *; lia)). lra.
        + rewrite XM by lia. pose proof (INC k (k + 1)%nat ltac:(lia) ltac:(unfold n in *; lia)). pose proof (INC (S k) (S k + 1)%nat ltac:(lia) ltac:(unfold n in *; lia)).
          replace (k + 1)%nat with (S k) in * by lia. lra. }
    intros i j IJ J. induction j as [|j IH]; [lia|]. destruct (Nat.eq_dec i j) as [->|]; [apply STEP; auto|]. apply Rlt_trans with (nth j xx 0); [apply IH; lia|apply STEP; auto]. }
  assert (LASTX : last xx 0 = last edges 0) by (rewrite last_nth, LX; replace (n + 2 - 1)%nat with (S n) by lia; rewrite XL, last_nth, LE; f_equal; unfold n; lia).
  assert (NODE : forall j, (j < List.length xx)%nat -> f (nth j xx 0) = nth j pp 0) by (intros; apply interp_node; auto; lia).
  assert (PN : forall p, In p pp -> 0 <= p).
  { intros p Hp. unfold pp in Hp. destruct Hp as [<-|Hp]; [lra|]. apply in_app_or in Hp. destruct Hp as [Hp|[<-|[]]]; [|lra]. apply (density_nonneg counts edges); auto. }
  assert (LO : forall x, x <= nth 0 edges 0 -> f x = 0).
  { intros x Hx. destruct (Req_dec x (nth 0 edges 0)) as [->|]; [apply (NODE 0%nat); lia|]. apply interp_low. change (x < nth 0 edges 0). lra. }
  assert (HI : forall x, last edges 0 <= x -> f x = 0).
  { intros x Hx. destruct (Req_dec x (last edges 0)) as [->|].
    - rewrite <- LASTX, last_nth, NODE by lia. unfold pp. rewrite LX. replace (n + 2 - 1)%nat with (S n) by lia. cbn [nth]. rewrite app_nth2 by (rewrite density_length by auto; fold n; lia).
      rewrite density_length by auto. fold n. rewrite Nat.sub_diag. reflexivity.
    - change (f x) with (interp_linear xx pp 0 0 x). apply interp_high; auto; [lia|]. lra. }
  split; [|split; [auto|split; [auto|]]].
  - intro x. destruct (Rle_dec x (nth 0 edges 0)); [rewrite LO; auto; lra|]. destruct (Rle_dec (last edges 0) x); [rewrite HI; auto; lra|].
    set (m := fold_right Rmax 0 pp).
    assert (B : 0 <= f x <= m); [|lra]. change (f x) with (interp_linear xx pp 0 0 x). apply interp_bounds; auto; [lia|lia| |change (nth 0 edges 0 <= x <= last xx 0); lra].
    intros p Hp. split; [auto|]. unfold m. clear - Hp. induction pp as [|q l IH]; [destruct Hp|]. simpl. destruct Hp as [->|Hp]; [apply Rmax_l|]. eapply Rle_trans; [apply IH; auto|apply Rmax_r].
  - intros j Hj. rewrite <- XM, NODE by (unfold n in *; lia). unfold pp. cbn [nth]. rewrite app_nth1 by (rewrite density_length by auto; auto). reflexivity.
Qed.

(** gaussian_kde: the pdf is the derivative of the cdf; for a kernel with values of a distribution, so are those of the cdf *)
Section Kde.
Variables (kcdf kpdf : R -> R) (bw : R).
Hypothesis BW : 0 < bw.
Hypothesis KD : forall z, is_derive kcdf z (kpdf z).
Let terms := combine (density IZR counts edges) (combine (midpoints edges) (ndiffl edges)).
Lemma kde_terms d m w : In (d, (m, w)) terms -> 0 <= d /\ 0 < w.
Proof using LE INC NN POS.
  intro H. unfold terms in H. split; [apply in_combine_l in H; apply (density_nonneg counts edges); auto|]. apply in_combine_r, in_combine_r in H. destruct (In_nth _ _ 0 H) as (j & J & <-). rewrite ndiffl_length in J.
  rewrite ndiffl_nth by lia. pose proof (INC j (S j) ltac:(lia) ltac:(lia)). lra.
Qed.
Lemma kde_sum cdf x : kde kcdf kpdf cdf bw (density IZR counts edges) edges x = total (map (fun p => let '(d, (m, w)) := p in
   if cdf then w * kcdf ((x - m)/(w * bw)) * d else / bw * kpdf ((x - m)/(w * bw)) * d) terms).
Proof using LE INC NN POS BW.
  unfold kde. rewrite nsum_R. fold terms. unfold total. f_equal. apply map_ext_in. intros [d [m w]] H. destruct (kde_terms d m w H). destruct cdf; simpl; [|unfold Rdiv; ring].
  replace (w * bw / bw) with w by (field; lra). reflexivity.
Qed.
Theorem C47_kde_derivative x : is_derive (kde kcdf kpdf true bw (density IZR counts edges) edges) x (kde kcdf kpdf false bw (density IZR counts edges) edges x).
Proof using LE INC NN POS BW KD.
  rewrite kde_sum. apply is_derive_ext with (f := fun x => total (map (fun p => let '(d, (m, w)) := p in w * kcdf ((x - m)/(w * bw)) * d) terms)).
  { intro t. symmetry. rewrite kde_sum. f_equal. }
  assert (G : forall l, (forall d m w, In (d, (m, w)) l -> 0 < w) -> is_derive (fun x => total (map (fun p => let '(d, (m, w)) := p in w * kcdf ((x - m)/(w * bw)) * d) l)) x
     (total (map (fun p => let '(d, (m, w)) := p in / bw * kpdf ((x - m)/(w * bw)) * d) l))).
  { induction l as [|[d [m w]] l IH]; intro H; simpl; [auto_derive; auto|]. apply (is_derive_plus (V := R_NormedModule)); [|apply IH; intros; eapply H; simpl; eauto].
    assert (W : 0 < w) by (apply (H d m w); simpl; auto).
    pose proof (KD ((x - m)/(w * bw))) as K. auto_derive; [eexists; apply KD|]. rewrite (is_derive_unique _ _ _ (KD _)). unfold Rdiv, Rminus. field. lra. }
  apply G. intros d m w H. apply (kde_terms d m w H).
Qed.
Theorem C47_kde_range : (forall z, 0 <= kcdf z <= 1) -> (forall z, 0 <= kpdf z) -> forall x,
  0 <= kde kcdf kpdf true bw (density IZR counts edges) edges x <= 1 /\ 0 <= kde kcdf kpdf false bw (density IZR counts edges) edges x.
Proof using LE INC NN POS BW.
  intros H1 H2 x. rewrite !kde_sum.
  assert (B : 0 < / bw) by (apply Rinv_0_lt_compat; auto).
  assert (G : forall l, (forall d m w, In (d, (m, w)) l -> 0 <= d /\ 0 < w) ->
    0 <= total (map (fun p => let '(d, (m, w)) := p in w * kcdf ((x - m)/(w * bw)) * d) l) <= total (map (fun p => let '(d, (m, w)) := p in w * d) l) /\
    0 <= total (map (fun p => let '(d, (m, w)) := p in / bw * kpdf ((x - m)/(w * bw)) * d) l)).
  { induction l as [|[d [m w]] l IH]; intro H; simpl; [lra|]. destruct IH as [I1 I2]; [intros; eapply H; simpl; eauto|]. destruct (H d m w) as [D W]; [simpl; auto|].
    pose proof (H1 ((x - m)/(w * bw))) as K1. pose proof (H2 ((x - m)/(w * bw))) as K2. set (k := kcdf _) in *. set (k2 := kpdf _) in *.
    assert (0 <= w * d) by (apply Rmult_le_pos; lra). assert (0 <= k * (w * d)) by (apply Rmult_le_pos; lra). assert (0 <= (1 - k) * (w * d)) by (apply Rmult_le_pos; lra).
    assert (0 <= / bw * k2 * d) by (apply Rmult_le_pos; [apply Rmult_le_pos; lra|lra]). replace (w * k * d) with (k * (w * d)) by ring. lra. }
  destruct (G terms kde_terms) as [G1 G2]. split; [|exact G2]. split; [apply G1|]. eapply Rle_trans; [apply G1|]. right.
  destruct C47_density as (_ & LD & T). rewrite <- T. rewrite (total_map_nth _ (List.length counts)).
  2:{ unfold terms. rewrite map_length, !combine_length, midpoints_length, ndiffl_length, LD. lia. }
  f_equal. apply map_ext_in. intros j Hj. apply in_seq in Hj. unfold terms.
  rewrite (map_combine_nth _ (density IZR counts edges) (combine (midpoints edges) (ndiffl edges)) j 0 (0, 0)) by (rewrite ?LD, ?combine_length, ?midpoints_length, ?ndiffl_length; lia).
  rewrite combine_nth by (rewrite midpoints_length, ndiffl_length; auto). rewrite ndiffl_nth by lia. rewrite Nat.add_1_r. ring.
Qed.
End Kde.
End P.

Lemma bin_counts_nonneg e l z : In z (bin_counts e l) -> (0 <= z)%Z.
Proof. unfold bin_counts. intro H. apply in_map_iff in H. destruct H as (j & <- & _). unfold count. lia. Qed.
(** after any sequence of updates: the cdf of a component at the edge j is the fraction of the values in the first j bins, among those that are
    in some bin, if any; edges of different bins being different *)
Theorem C47_data auto kcdf kpdf bw use bins range v l n a ix : bins_for v bins -> bins <> BNone -> l <> [] -> List.Forall (sample_ok use v) l ->
  mc_updates auto 0 (mc_new bins range use) l = ((n, a), Ok tt) -> inb v ix ->
  exists c edges, mc_getitem n a ix = Ok c /\ mc_histogram n c = Ok (bin_counts edges (data_of use l ix), edges) /\
    (increasing edges -> (count (outside edges) (data_of use l ix) < Z.of_nat n)%Z ->
       exists F f, (forall x, mc_pdf_or_cdf IZR kcdf kpdf n c "interp" true bw x = Ok (F x)) /\ (forall x, mc_pdf_or_cdf IZR kcdf kpdf n c "interp" false bw x = Ok (f x)) /\
         (forall x y, x <= y -> F x <= F y) /\ (forall x, x <= nth 0 edges 0 -> F x = 0) /\ (forall x, last edges 0 <= x -> F x = 1) /\ (forall x, 0 <= f x) /\
         (forall j, (j < List.length edges)%nat -> F (nth j edges 0) =
            IZR (fold_right Z.add 0%Z (firstn j (bin_counts edges (data_of use l ix)))) / (INR n - IZR (count (outside edges) (data_of use l ix))))).
Proof.
  intros HB HN HL HF H Hix. destruct (C45_conservation auto use bins range v l n a HB HN HL HF H ix Hix) as (c & counts & edges & out & G1 & G2 & G3 & ND & -> & -> & SUM).
  exists c, edges. split; [auto|]. split; [auto|]. intros INC OUT. set (cs := bin_counts edges (data_of use l ix)) in *.
  assert (POS : (0 < fold_right Z.add 0 cs)%Z) by lia.
  assert (LC : List.length cs = (List.length edges - 1)%nat) by (unfold cs, bin_counts; rewrite map_length, seq_length; auto).
  assert (LE : List.length edges = S (List.length cs)). { destruct edges; [|simpl in *; lia]. unfold cs in POS. simpl in POS. lia. }
  assert (NN : forall z, In z cs -> (0 <= z)%Z) by (intro; apply bin_counts_nonneg).
  destruct (C47_cdf cs edges LE INC NN POS) as (F1 & F2 & F3 & F4 & _). destruct (C47_pdf cs edges LE INC NN POS) as (P1 & _).
  exists (cdf_interp (density IZR cs edges) edges), (pdf_interp (density IZR cs edges) edges).
  split; [intro; unfold mc_pdf_or_cdf, mc_density_histogram; rewrite G2; reflexivity|]. split; [intro; unfold mc_pdf_or_cdf, mc_density_histogram; rewrite G2; reflexivity|].
  do 4 (split; [auto|]). intros j Hj. rewrite F4 by lia. f_equal. rewrite INR_IZR_INZ, <- minus_IZR. f_equal. lia.
Qed.

(** bins [0, 1), [1, 3] with 1 and 3 values: densities 1/4, 3/8; cdf 1/4 at 1, 5/8 at 2; pdf 3/8 at 2 *)
Example ex_C47 : let d := density IZR [1; 3]%Z [0; 1; 3] in nth 0 d 0 = 1/4 /\ nth 1 d 0 = 3/8 /\ cdf_interp d [0; 1; 3] 1 = 1/4 /\ cdf_interp d [0; 1; 3] 2 = 5/8 /\ pdf_interp d [0; 1; 3] 2 = 3/8.
Proof.
  intro d. assert (LE : List.length [0; 1; 3] = S (List.length [1; 3]%Z)) by reflexivity.
  assert (INC : increasing [0; 1; 3]). { intros [|[|[|i]]] [|[|[|j]]] H1 H2; simpl in *; try lia; lra. }
  assert (NN : forall z, In z [1; 3]%Z -> (0 <= z)%Z) by (intros z [<-|[<-|[]]]; lia).
  destruct (C47_cdf [1; 3]%Z [0; 1; 3] LE INC NN eq_refl) as (_ & _ & _ & F4 & F5). destruct (C47_pdf [1; 3]%Z [0; 1; 3] LE INC NN eq_refl) as (_ & _ & _ & P4). fold d in F4, F5, P4.
  assert (D0 : nth 0 d 0 = 1/4) by (unfold d; simpl; lra). assert (D1 : nth 1 d 0 = 3/8) by (unfold d; simpl; lra).
  split; [auto|]. split; [auto|]. pose proof (F4 1%nat ltac:(simpl; lia)) as E1. simpl in E1. split; [rewrite E1; lra|].
  split; [rewrite (F5 1%nat 2) by (simpl; try lia; lra); change (nth 1 [0; 1; 3] 0) with 1; rewrite E1, D1; lra|].
  rewrite <- D1, <- (P4 1%nat) by (simpl; lia). f_equal. simpl. lra.
Qed.
Print Assumptions C47_density. Print Assumptions C47_cdf. Print Assumptions C47_pdf. Print Assumptions C47_kde_derivative. Print Assumptions C47_kde_range. Print Assumptions C47_data.
