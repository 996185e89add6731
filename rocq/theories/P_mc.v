(** Properties of the montecarlo class: C44, C45, C46, C48, C49.  [auto] stands for the methods of numpy that select the
    number of bins. *)
From Coq Require Import String List Arith Bool Lia ZArith Reals Lra Permutation.
From Verif Require Import Base BaseNum BaseArr BaseNd M_mc S_mc L_nd L_mc L_mc2 L_mc3 L_mc4.
Import ListNotations.
Local Open Scope R_scope.

Section P.
Variable auto : string -> list R -> option (R * R) -> res nat.

(** *** C44 *)
Lemma stat_get (f : R -> R -> R -> R -> R) v N D a : moments_inv v N D a -> exists r, stat a f = Ok r /\ shp r = v /\
  forall ix, inb v ix -> exists c, dat r ix = f (moment c 1 (D ix)) (moment c 2 (D ix)) (moment c 3 (D ix)) (moment c 4 (D ix)).
Proof.
  intros (c & mean & m1 & m2 & m3 & m4 & EC & EME & EMO & SC & SME & S1 & S2 & S3 & S4 & H). unfold stat, on_moments. rewrite EMO.
  eexists. split; [reflexivity|]. split; [auto|]. intros ix Hix. exists (dat c ix). destruct (H ix Hix) as (_ & _ & E1 & E2 & E3 & E4). cbn [dat]. congruence.
Qed.
(** Statistics of the object after any successful sequence of updates, for samples of data points of shape v: with
    [D ix] the data cumulated for the component ix *)
Theorem C44_statistics use bins range v l n a : bins_for v bins -> l <> [] -> List.Forall (sample_ok use v) l ->
  mc_updates auto 0 (mc_new bins range use) l = ((n, a), Ok tt) ->
  exists mean var std skew kurt, mc_mean a = Some mean /\ mc_var n a = Ok var /\ mc_std n a = Ok std /\ mc_skew n a = Ok skew /\ mc_kurtosis n a = Ok kurt /\
    shp mean = v /\ shp var = v /\ shp std = v /\ shp skew = v /\ shp kurt = v /\
    forall ix, inb v ix -> let D := data_of use l ix in
      n = List.length D /\ dat mean ix = average D /\ dat std ix = sqrt (dat var ix) /\
      ((n < 2)%nat -> dat var ix = 0 /\ dat skew ix = 0 /\ dat kurt ix = -3) /\
      ((2 <= n)%nat -> dat var ix = central 2 D /\
         (central 2 D <> 0 -> dat skew ix = central 3 D / (central 2 D * sqrt (central 2 D)) /\ dat kurt ix = central 4 D / central 2 D ^2)).
Proof.
  intros HB HL HF H. destruct (updates_inv auto use v (mc_new bins range use) l n a eq_refl HB HL HF H) as (P & E & (HU & HM & HH) & _).
  pose proof HM as (c & mean & m1 & m2 & m3 & m4 & EC & EME & EMO & SC & SME & S1 & S2 & S3 & S4 & HD).
  unfold mc_var, mc_std, mc_skew, mc_kurtosis, stat, on_moments. rewrite EMO. exists mean. do 4 eexists. do 5 (split; [auto; reflexivity|]). cbn [shp dat]. do 5 (split; [auto|]).
  intros ix Hix. cbv zeta. destruct (HD ix Hix) as (L & A0 & A1 & A2 & A3 & A4). split; [auto|]. split; [auto|]. split; [reflexivity|].
  unfold var1. rewrite A1, A2, A3, A4. set (D := data_of use l ix) in *. destruct (moment_center (dat c ix) D) as (B1 & B2 & B3 & B4); [lia|]. rewrite B1, B2, B3, B4.
  set (d := average D - dat c ix). destruct (Nat.ltb_spec n 2) as [L2|L2]; split; intro Q; try lia.
  - unfold three. simpl. repeat split; lra.
  - unfold three, four, six. simpl.
    replace (central 2 D + d*(d*1) - d*d) with (central 2 D) by ring. split; [reflexivity|]. intro NZ. split; [f_equal; ring|]. field. auto.
Qed.
(** standard error: nan with less than two data points *)
Theorem C44_stderr use bins range v l n a : bins_for v bins -> l <> [] -> List.Forall (sample_ok use v) l ->
  mc_updates auto 0 (mc_new bins range use) l = ((n, a), Ok tt) ->
  ((n < 2)%nat -> mc_stderr n a = None) /\
  ((2 <= n)%nat -> exists e, mc_stderr n a = Some (Ok e) /\ shp e = v /\
     forall ix, inb v ix -> dat e ix = sqrt (central 2 (data_of use l ix) / (INR n - 1))).
Proof.
  intros HB HL HF H. destruct (updates_inv auto use v (mc_new bins range use) l n a eq_refl HB HL HF H) as (P & E & (HU & HM & HH) & _).
  unfold mc_stderr. destruct (Nat.ltb_spec n 2) as [L2|L2]; split; intro Q; try lia; [reflexivity|].
  destruct (stat_get (fun m1 m2 m3 m4 => nsqrt (ndiv (var1 n m1 m2 m3 m4) (nofnat (n - 1)))) v n (data_of use l) a HM) as (r & ER & SR & HR).
  exists r. split; [f_equal; exact ER|]. split; [auto|]. intros ix Hix. destruct (HR ix Hix) as (c & ->).
  assert (L : List.length (data_of use l ix) = n) by (destruct HM as (? & ? & ? & ? & ? & ? & _ & _ & _ & _ & _ & _ & _ & _ & _ & HD); apply HD; auto).
  destruct (moment_center c (data_of use l ix)) as (B1 & B2 & _); [lia|]. rewrite B1, B2. unfold var1. destruct (Nat.ltb_spec n 2); [lia|]. simpl. rewrite minus_INR by lia. simpl.
  f_equal. f_equal. ring.
Qed.
(** without histogram, every sequence of acceptable samples is accepted *)
Theorem C44_succeeds use range v l : l <> [] -> List.Forall (sample_ok use v) l -> exists n a, mc_updates auto 0 (mc_new BNone range use) l = ((n, a), Ok tt).
Proof.
  intros HL HF. destruct l as [|[x ax] l]; [contradiction|]. inversion HF; subst.
  destruct (update_first_none auto use v (mc_new BNone range use) (x, ax) eq_refl) as (m & a1 & E1 & P & L & I); auto.
  destruct (updates_next auto use v None l m _ a1 P I) as (n & a' & E2 & _); auto. exists n, a'. cbn [mc_updates]. simpl in E1. rewrite E1. exact E2.
Qed.

Lemma total_perm l1 l2 : Permutation l1 l2 -> total l1 = total l2.
Proof. induction 1; simpl; lra. Qed.
Lemma average_perm l1 l2 : Permutation l1 l2 -> average l1 = average l2.
Proof. intro H. unfold average. rewrite (total_perm _ _ H), (Permutation_length H). reflexivity. Qed.
Lemma central_perm k l1 l2 : Permutation l1 l2 -> central k l1 = central k l2.
Proof. intro H. unfold central. rewrite (average_perm _ _ H). apply average_perm. apply Permutation_map. auto. Qed.
(** two histories with the same data, in any order and grouped in any way, give the same statistics *)
Theorem C44_grouping use bins1 bins2 range1 range2 v l1 l2 n1 a1 n2 a2 : bins_for v bins1 -> bins_for v bins2 -> l1 <> [] -> l2 <> [] ->
  List.Forall (sample_ok use v) l1 -> List.Forall (sample_ok use v) l2 ->
  mc_updates auto 0 (mc_new bins1 range1 use) l1 = ((n1, a1), Ok tt) -> mc_updates auto 0 (mc_new bins2 range2 use) l2 = ((n2, a2), Ok tt) ->
  forall ix, inb v ix -> Permutation (data_of use l1 ix) (data_of use l2 ix) ->
  n1 = n2 /\ forall mean1 mean2 var1 var2 skew1 skew2 kurt1 kurt2, mc_mean a1 = Some mean1 -> mc_mean a2 = Some mean2 ->
    mc_var n1 a1 = Ok var1 -> mc_var n2 a2 = Ok var2 -> mc_skew n1 a1 = Ok skew1 -> mc_skew n2 a2 = Ok skew2 ->
    mc_kurtosis n1 a1 = Ok kurt1 -> mc_kurtosis n2 a2 = Ok kurt2 ->
    dat mean1 ix = dat mean2 ix /\ dat var1 ix = dat var2 ix /\
    (dat var1 ix <> 0 -> dat skew1 ix = dat skew2 ix /\ dat kurt1 ix = dat kurt2 ix).
Proof.
  intros B1 B2 L1 L2 F1 F2 H1 H2 ix Hix HP.
  destruct (C44_statistics _ _ _ _ _ _ _ B1 L1 F1 H1) as (me1 & va1 & st1 & sk1 & ku1 & E1 & E2 & E3 & E4 & E5 & _ & _ & _ & _ & _ & G1).
  destruct (C44_statistics _ _ _ _ _ _ _ B2 L2 F2 H2) as (me2 & va2 & st2 & sk2 & ku2 & E6 & E7 & E8 & E9 & E0 & _ & _ & _ & _ & _ & G2).
  destruct (G1 ix Hix) as (N1 & A1 & _ & S1 & T1), (G2 ix Hix) as (N2 & A2 & _ & S2 & T2).
  assert (NN : n1 = n2) by (rewrite N1, N2; apply Permutation_length; auto). split; [auto|].
  intros mean1 mean2 var1 var2 skew1 skew2 kurt1 kurt2 Q1 Q2 Q3 Q4 Q5 Q6 Q7 Q8.
  assert (mean1 = me1) as -> by congruence. assert (mean2 = me2) as -> by congruence. assert (var1 = va1) as -> by congruence. assert (var2 = va2) as -> by congruence.
  assert (skew1 = sk1) as -> by congruence. assert (skew2 = sk2) as -> by congruence. assert (kurt1 = ku1) as -> by congruence. assert (kurt2 = ku2) as -> by congruence.
  split; [rewrite A1, A2; apply average_perm; auto|]. destruct (Nat.lt_ge_cases n1 2) as [Q|Q].
  - destruct (S1 Q) as (-> & -> & ->). rewrite NN in Q. destruct (S2 Q) as (-> & -> & ->). auto.
  - destruct (T1 Q) as (V1 & W1). rewrite NN in Q. destruct (T2 Q) as (V2 & W2). rewrite V1, V2. rewrite (central_perm 2 _ _ HP) in *. split; [auto|].
    intro NZ. destruct (W1 NZ) as (-> & ->), (W2 NZ) as (-> & ->). rewrite (central_perm 3 _ _ HP), (central_perm 4 _ _ HP). auto.
Qed.

(** *** C45 *)
Lemma sub_full {A} (x : arr A) v ix : shp x = v -> inb v ix -> sub_arr x ix = Ok (mkArr [] (fun jx => dat x (ix ++ jx))).
Proof. intros S H. apply (sub_arr_prefix x v []); auto. rewrite app_nil_r. auto. Qed.
Lemma getitem_full use v N D E a ix : (0 < N)%nat -> inv use v N D (Some E) a -> inb v ix ->
  exists c, mc_getitem N a ix = Ok c /\ mc_center c = None /\ mc_use c = "all"%string /\
    mc_histogram N c = Ok (bin_counts (E ix) (D ix), E ix) /\ mc_outpaths N c = Ok (count (outside (E ix)) (D ix)) /\
    exists mean m1 m2 m3 m4 ctr, mc_mean c = Some mean /\ mc_moments c = Some [m1; m2; m3; m4] /\
      shp mean = [] /\ shp m1 = [] /\ dat mean [] = average (D ix) /\ dat m1 [] = moment ctr 1 (D ix) /\ dat m2 [] = moment ctr 2 (D ix) /\
      dat m3 [] = moment ctr 3 (D ix) /\ dat m4 [] = moment ctr 4 (D ix).
Proof.
  intros HN (HU & (ctr & mean & m1 & m2 & m3 & m4 & EC & EME & EMO & SC & SME & S1 & S2 & S3 & S4 & HM) & (b & c & o & EB & ECo & EO & SB & SCo & SO & HH)) Hix.
  unfold mc_getitem. rewrite EB, EME, EMO, ECo, EO. rewrite (sub_full b v ix SB Hix). cbv beta iota delta [rbind]. destruct (Nat.eqb_spec N 0); [lia|].
  unfold sub_opt. rewrite (sub_full mean v ix SME Hix), (sub_full m1 v ix S1 Hix), (sub_full m2 v ix S2 Hix), (sub_full m3 v ix S3 Hix), (sub_full m4 v ix S4 Hix),
    (sub_full c v ix SCo Hix), (sub_full o v ix SO Hix). cbv beta iota delta [rbind].
  destruct (HH ix Hix) as (H1 & H2 & H3 & H4). destruct (HM ix Hix) as (_ & G0 & G1 & G2 & G3 & G4).
  eexists. split; [reflexivity|]. split; [reflexivity|]. split; [reflexivity|].
  assert (HIST : forall x, mc_histogram N (mkMc (BObj (mkArr [] (fun jx => dat b (ix ++ jx)%list))) x "all" (Some (mkArr [] (fun jx => dat mean (ix ++ jx)%list)))
     (Some [mkArr [] (fun jx => dat m1 (ix ++ jx)%list); mkArr [] (fun jx => dat m2 (ix ++ jx)%list); mkArr [] (fun jx => dat m3 (ix ++ jx)%list); mkArr [] (fun jx => dat m4 (ix ++ jx)%list)]) None
     (Some (mkArr [] (fun jx => dat c (ix ++ jx)%list))) (Some (mkArr [] (fun jx => dat o (ix ++ jx)%list)))) = Ok (bin_counts (E ix) (D ix), E ix)).
  { intro x. unfold mc_histogram. cbn [mc_bins mc_counts shp]. destruct (Nat.eqb_spec N 0); [lia|]. simpl. rewrite app_nil_r, H1, H3. reflexivity. }
  split; [apply HIST|]. split.
  { unfold mc_outpaths. rewrite HIST. cbv beta iota delta [rbind]. simpl. rewrite app_nil_r, H4. reflexivity. }
  do 5 eexists. exists (dat ctr ix). split; [reflexivity|]. split; [reflexivity|]. cbn [shp dat]. rewrite !app_nil_r. auto 10.
Qed.

(** after any sequence of updates, for every component: each count is the number of values cumulated in its bin, the
    paths outside are those in no bin, and they add up *)
Theorem C45_conservation use bins range v l n a : bins_for v bins -> bins <> BNone -> l <> [] -> List.Forall (sample_ok use v) l ->
  mc_updates auto 0 (mc_new bins range use) l = ((n, a), Ok tt) ->
  forall ix, inb v ix -> exists c counts edges out, mc_getitem n a ix = Ok c /\ mc_histogram n c = Ok (counts, edges) /\ mc_outpaths n c = Ok out /\
    nondecreasing edges /\ counts = bin_counts edges (data_of use l ix) /\ out = count (outside edges) (data_of use l ix) /\
    (fold_right Z.add 0 counts + out = Z.of_nat n)%Z.
Proof.
  intros HB HN HL HF H ix Hix. destruct (updates_inv auto use v (mc_new bins range use) l n a eq_refl HB HL HF H) as (P & E & HI & HE).
  destruct E as [E|]; [|contradiction]. destruct (getitem_full use v n (data_of use l) E a ix P HI Hix) as (c & G1 & G2 & _ & G3 & G4 & _).
  destruct HI as (_ & HM & (b & cc & o & _ & _ & _ & _ & _ & _ & HH)). destruct (HH ix Hix) as (_ & NE & _).
  exists c, (bin_counts (E ix) (data_of use l ix)), (E ix), (count (outside (E ix)) (data_of use l ix)). do 6 (split; [auto|]).
  pose proof (bins_conserve (E ix) (data_of use l ix) NE) as BC. unfold zsum in BC. rewrite BC. f_equal.
  destruct HM as (? & ? & ? & ? & ? & ? & _ & _ & _ & _ & _ & _ & _ & _ & _ & HD). apply HD; auto.
Qed.
(** given edges are used as they are, and every sequence of samples is accepted *)
Theorem C45_given_edges use m k range v l : shp m = (v ++ [k])%list ->
  (forall ix, inb v ix -> nondecreasing (map (fun j => dat m (ix ++ [j])%list) (seq 0 k))) -> l <> [] -> List.Forall (sample_ok use v) l ->
  exists n a, mc_updates auto 0 (mc_new (BArr m) range use) l = ((n, a), Ok tt) /\
    forall ix, inb v ix -> exists c counts, mc_getitem n a ix = Ok c /\ mc_histogram n c = Ok (counts, map (fun j => dat m (ix ++ [j])%list) (seq 0 k)).
Proof.
  intros SM NM HL HF. destruct l as [|[x ax] l]; [contradiction|]. inversion HF; subst.
  assert (RM : forall ix, row m ix = map (fun j => dat m (ix ++ [j])%list) (seq 0 k)) by (intro; unfold row; rewrite SM, last_snoc; auto).
  destruct (update_first_ok auto use v (mc_new (BArr m) range use) (x, ax) (fun ix => HEdges (row m ix)) None eq_refl) as (n1 & a1 & E & E1 & P & L & I & HE); auto.
  { simpl. split; [auto|]. split; [eauto|auto]. }
  { intros ix Hix. simpl. rewrite hist_edges_run; [eauto|]. rewrite RM. auto. }
  destruct (updates_next auto use v (Some E) l n1 _ a1 P I) as (n & a' & E2 & LE & I2); auto. exists n, a'. cbn [mc_updates]. simpl in E1. rewrite E1. split; [exact E2|].
  intros ix Hix. destruct (getitem_full use v n _ E a' ix ltac:(lia) I2 Hix) as (c & G1 & G2 & _ & G3 & _). exists c. eexists. split; [exact G1|]. rewrite G3. f_equal. f_equal.
  specialize (HE ix Hix). simpl in HE. rewrite hist_edges_run in HE by (rewrite RM; auto). injection HE as HE. rewrite <- RM. congruence.
Qed.
(** a number of bins: n equal bins, that cover the first sample of each component if no range is given, and the range otherwise;
    every sequence of samples is accepted *)
Theorem C45_equal_bins use k range v l : (0 < k)%nat -> (forall r0 r1, range = Some (r0, r1) -> r0 <= r1) -> l <> [] -> List.Forall (sample_ok use v) l ->
  exists n a, mc_updates auto 0 (mc_new (BInt k) range use) l = ((n, a), Ok tt) /\
    forall ix, inb v ix -> exists c counts edges lo hi, mc_getitem n a ix = Ok c /\ mc_histogram n c = Ok (counts, edges) /\ lo < hi /\ List.length edges = S k /\
      (forall j, (j <= k)%nat -> nth j edges 0 = lo + INR j * ((hi - lo)/INR k)) /\
      (forall r0 r1, range = Some (r0, r1) -> r0 < r1 -> lo = r0 /\ hi = r1) /\
      (range = None -> count (outside edges) (data_of use (firstn 1 l) ix) = 0%Z).
Proof.
  intros KP HRG HL HF. destruct l as [|[x ax] l]; [contradiction|]. inversion HF; subst.
  destruct (update_first_ok auto use v (mc_new (BInt k) range use) (x, ax) (fun _ => HInt k) range eq_refl) as (n1 & a1 & E & E1 & P & L & I & HE); auto.
  { split; auto. }
  { intros ix Hix. simpl. destruct (hist_int_ok (seen use (values (x, ax) ix)) k range KP HRG) as (lo & hi & _ & EQ & _). rewrite EQ. eauto. }
  destruct (updates_next auto use v (Some E) l n1 _ a1 P I) as (n & a' & E2 & LE & I2); auto. exists n, a'. cbn [mc_updates]. simpl in E1. rewrite E1. split; [exact E2|].
  intros ix Hix. destruct (getitem_full use v n _ E a' ix ltac:(lia) I2 Hix) as (c & G1 & G2 & _ & G3 & _).
  destruct (hist_int_ok (seen use (values (x, ax) ix)) k range KP HRG) as (lo & hi & LH & EQ & OUT & RG). specialize (HE ix Hix). simpl in HE. rewrite EQ in HE. injection HE as _ HE.
  exists c. eexists _, (E ix), lo, hi. split; [exact G1|]. split; [exact G3|]. split; [auto|]. rewrite <- HE. split; [apply linspace_length|]. split; [intros; apply linspace_nth; auto|].
  split; [auto|]. intro RN. unfold data_of. simpl. rewrite app_nil_r. auto.
Qed.
(** histograms are for single components only *)
Theorem C45_single use bins range v l n a : bins_for v bins -> bins <> BNone -> l <> [] -> List.Forall (sample_ok use v) l ->
  mc_updates auto 0 (mc_new bins range use) l = ((n, a), Ok tt) ->
  ((exists ix iy, ix <> iy /\ inb v ix /\ inb v iy) -> mc_histogram n a = Err IndexError) /\
  (forall ix, inb v ix -> (forall iy, inb v iy -> iy = ix) -> exists edges, mc_histogram n a = Ok (bin_counts edges (data_of use l ix), edges)).
Proof.
  intros HB HN HL HF H. destruct (updates_inv auto use v (mc_new bins range use) l n a eq_refl HB HL HF H) as (P & E & (_ & _ & HI) & HE).
  destruct E as [E|]; [|contradiction]. destruct HI as (b & c & o & EB & EC & EO & SB & SC & SO & HH).
  unfold mc_histogram. destruct (Nat.eqb_spec n 0); [lia|]. rewrite EB, EC, SC. split.
  - intros (ix & iy & NE & HX & HY). apply in_ndindex in HX, HY. destruct (ndindex v) as [|i [|j t]]; [destruct HX| |reflexivity].
    exfalso. apply NE. destruct HX as [<-|[]], HY as [<-|[]]. reflexivity.
  - intros ix HX HU. pose proof (NoDup_ndindex v) as ND. assert (IX : In ix (ndindex v)) by (apply in_ndindex; auto).
    assert (ALL : forall i, In i (ndindex v) -> i = ix) by (intros i Hi; apply HU, in_ndindex; auto).
    destruct (ndindex v) as [|i [|j t]]; [destruct IX| |].
    + rewrite (ALL i) by (simpl; auto). destruct (HH ix HX) as (-> & _ & -> & _). eauto.
    + exfalso. inversion ND as [|? ? NI _]; subst. apply NI. left. rewrite (ALL i), (ALL j) by (simpl; auto). reflexivity.
Qed.

(** *** C46 *)
Lemma total_halves sg l : Nat.even (List.length l) = true -> total (halves sg l) =
  (total (firstn (Nat.div (List.length l) 2) l) + sg * total (skipn (Nat.div (List.length l) 2) l)) / 2.
Proof.
  intro EV. apply Nat.even_spec in EV. destruct EV as [h EH]. unfold halves. assert (ED : (List.length l / 2 = h)%nat) by (rewrite EH, Nat.mul_comm; apply Nat.div_mul; lia). rewrite ED.
  assert (G : forall k, (k <= h)%nat -> total (map (fun j => (nth j l 0 + sg * nth (h + j) l 0)/2) (seq 0 k)) =
     (total (firstn k l) + sg * total (firstn k (skipn h l)))/2).
  { induction k as [|k IH]; intro Hk; [simpl; lra|]. rewrite seq_S, map_app, total_app, IH by lia. cbn [map]. rewrite Nat.add_0_l.
    assert (FS : forall (l : list R) k, (k < List.length l)%nat -> firstn (S k) l = (firstn k l ++ [nth k l 0])%list).
    { clear. induction l as [|x l IH]; intros [|k] H; simpl in *; try lia; auto. rewrite <- IH by lia. reflexivity. }
    rewrite (FS l) by lia. rewrite (FS (skipn h l)) by (rewrite skipn_length; lia). rewrite !total_app.
    assert (NS : forall (l : list R) h k, nth k (skipn h l) 0 = nth (h + k) l 0).
    { clear. induction l as [|x l IH]; intros [|h] k; simpl; auto. destruct k; auto. }
    rewrite NS. simpl. lra. }
  rewrite G by lia. rewrite (firstn_all2 (skipn h l)) by (rewrite skipn_length; lia). reflexivity.
Qed.
Lemma even_total v l ix : List.Forall (sample_ok "even" v) l -> inb v ix ->
  total (data_of "even" l ix) = total (all_values l ix) / 2 /\ (2 * List.length (data_of "even" l ix) = List.length (all_values l ix))%nat.
Proof.
  intros HF Hix. induction HF as [|x l (n & B & P & [U|[_ EV]]) HF [IH1 IH2]]; [simpl; split; [lra|auto]|discriminate|].
  unfold data_of, all_values in *. cbn [flat_map]. rewrite !total_app, !app_length, IH1.
  assert (LV : List.length (values x ix) = n) by (apply (values_length v); auto).
  change (seen "even" (values x ix)) with (halves 1 (values x ix)). rewrite total_halves by (rewrite LV; auto). rewrite halves_length, LV. split.
  - rewrite <- (firstn_skipn (n/2) (values x ix)) at 3. rewrite total_app. lra.
  - apply Nat.even_spec in EV. destruct EV as [h ->]. rewrite (Nat.mul_comm 2 h), Nat.div_mul by lia. lia.
Qed.
(** half sums: the same mean as with all values, from half the data points *)
Theorem C46_even bins range v l n a : bins_for v bins -> l <> [] -> List.Forall (sample_ok "even" v) l ->
  mc_updates auto 0 (mc_new bins range "even") l = ((n, a), Ok tt) ->
  exists mean, mc_mean a = Some mean /\ forall ix, inb v ix -> dat mean ix = average (all_values l ix) /\ (2 * n = List.length (all_values l ix))%nat.
Proof.
  intros HB HL HF H. destruct (C44_statistics _ _ _ _ _ _ _ HB HL HF H) as (mean & va & st & sk & ku & E & _ & _ & _ & _ & _ & _ & _ & _ & _ & G).
  exists mean. split; auto. intros ix Hix. destruct (G ix Hix) as (N & A & _). destruct (even_total v l ix HF Hix) as [T L]. split; [|rewrite N; auto].
  rewrite A. unfold average. rewrite T, <- L, mult_INR. simpl (INR 2). 
  assert (0 < n)%nat by (destruct (updates_inv auto "even" v (mc_new bins range "even") l n a eq_refl HB HL HF H); auto).
  assert (0 < INR (List.length (data_of "even" l ix))) by (apply lt_0_INR; lia). field. lra.
Qed.
(** half differences *)
Theorem C46_odd bins range v l n a : bins_for v bins -> l <> [] -> List.Forall (sample_ok "odd" v) l ->
  mc_updates auto 0 (mc_new bins range "odd") l = ((n, a), Ok tt) ->
  exists mean, mc_mean a = Some mean /\ forall ix, inb v ix ->
    INR n * dat mean ix = total (map (fun x => (total (firstn (List.length (values x ix) / 2) (values x ix)) - total (skipn (List.length (values x ix) / 2) (values x ix))) / 2) l).
Proof.
  intros HB HL HF H. destruct (C44_statistics _ _ _ _ _ _ _ HB HL HF H) as (mean & va & st & sk & ku & E & _ & _ & _ & _ & _ & _ & _ & _ & _ & G).
  exists mean. split; auto. intros ix Hix. destruct (G ix Hix) as (N & A & _). rewrite A. unfold average. rewrite <- N.
  assert (PN : (0 < n)%nat) by (destruct (updates_inv auto "odd" v (mc_new bins range "odd") l n a eq_refl HB HL HF H); auto). apply lt_0_INR in PN.
  replace (INR n * (total (data_of "odd" l ix) / INR n)) with (total (data_of "odd" l ix)) by (field; lra).
  clear - HF. unfold data_of. induction HF as [|x l (n & B & P & [U|[_ EV]]) HF IH]; [reflexivity|discriminate|]. cbn [flat_map map]. rewrite total_app, IH.
  unfold seen. simpl String.eqb. cbv iota. rewrite total_halves by (rewrite (values_length v n); auto). simpl total. lra.
Qed.
(** an odd number of paths is refused, and leaves the object as it was; so does an unknown value of use *)
Theorem C46_refused N a x v n : batch v n x ->
  ((mc_use a = "even" \/ mc_use a = "odd")%string /\ Nat.even n = false \/ (mc_use a <> "all" /\ mc_use a <> "even" /\ mc_use a <> "odd")%string) ->
  mc_update auto N a (fst x) (snd x) = ((N, a), Err ValueError).
Proof.
  intros B [[U O]|(U1 & U2 & U3)]; unfold mc_update.
  - rewrite (mc_sample_odd _ v n x B U O). reflexivity.
  - destruct (moveaxis_batch v n x B) as (y & E & _). unfold mc_sample. rewrite E. unfold rbind.
    apply String.eqb_neq in U1, U2, U3. rewrite U1, U2, U3. reflexivity.
Qed.

(** *** C48 *)
Theorem C48_component use bins range v l n a : bins_for v bins -> bins <> BNone -> l <> [] -> List.Forall (sample_ok use v) l ->
  mc_updates auto 0 (mc_new bins range use) l = ((n, a), Ok tt) ->
  forall ix, inb v ix -> exists c, mc_getitem n a ix = Ok c /\
    (exists m, mc_mean c = Some m /\ shp m = [] /\ dat m [] = average (data_of use l ix)) /\
    (forall var, mc_var n a = Ok var -> exists var', mc_var n c = Ok var' /\ shp var' = [] /\ dat var' [] = dat var ix) /\
    (forall sk, mc_skew n a = Ok sk -> exists sk', mc_skew n c = Ok sk' /\ shp sk' = [] /\ dat sk' [] = dat sk ix) /\
    (forall ku, mc_kurtosis n a = Ok ku -> exists ku', mc_kurtosis n c = Ok ku' /\ shp ku' = [] /\ dat ku' [] = dat ku ix).
Proof.
  intros HB HN HL HF H ix Hix. destruct (updates_inv auto use v (mc_new bins range use) l n a eq_refl HB HL HF H) as (P & E & HI & HE).
  destruct E as [E|]; [|contradiction].
  destruct HI as (HU & (ctr & mean & m1 & m2 & m3 & m4 & EC & EME & EMO & SC & SME & S1 & S2 & S3 & S4 & HM) & (b & c & o & EB & ECo & EO & SB & SCo & SO & HH)).
  unfold mc_getitem. rewrite EB, EME, EMO, ECo, EO. rewrite (sub_full b v ix SB Hix). cbv beta iota delta [rbind]. destruct (Nat.eqb_spec n 0); [lia|].
  unfold sub_opt. rewrite (sub_full mean v ix SME Hix), (sub_full m1 v ix S1 Hix), (sub_full m2 v ix S2 Hix), (sub_full m3 v ix S3 Hix), (sub_full m4 v ix S4 Hix),
    (sub_full c v ix SCo Hix), (sub_full o v ix SO Hix). cbv beta iota delta [rbind].
  eexists. split; [reflexivity|]. split; [eexists; split; [reflexivity|]; split; [reflexivity|]; cbn [dat]; rewrite app_nil_r; apply HM; auto|].
  unfold mc_var, mc_skew, mc_kurtosis, stat, on_moments. rewrite EMO. cbn [mc_moments].
  repeat split; intros z EZ; injection EZ as <-; (eexists; split; [reflexivity|]; split; [reflexivity|]; cbn [dat]; rewrite !app_nil_r; reflexivity).
Qed.
(** no histogram: indexing raises, once there are data *)
Theorem C48_no_histogram use range v l n a : l <> [] -> List.Forall (sample_ok use v) l ->
  mc_updates auto 0 (mc_new BNone range use) l = ((n, a), Ok tt) -> forall ix, exists e, mc_getitem n a ix = Err e.
Proof.
  intros HL HF H ix. destruct l as [|[x ax] l]; [contradiction|]. inversion HF; subst.
  assert (G : forall l N a n a', List.Forall (sample_ok use v) l -> mc_bins a = BNone -> mc_counts a = None -> mc_updates auto N a l = ((n, a'), Ok tt) -> mc_bins a' = BNone /\ mc_counts a' = None).
  { clear. induction l as [|[x ax] l IH]; intros N a n a' HF HB HC H; cbn [mc_updates] in H; [injection H as <- <-; auto|].
    inversion HF; subst. destruct (mc_update auto N a x ax) as [[n1 a1] [[]|]] eqn:E1; [|discriminate]. apply (IH _ _ _ _ H3) in H; auto.
    - unfold mc_update in E1. destruct (mc_sample (mc_use a) x ax) as [y|]; [|discriminate]. unfold mc_update_moments in E1.
      destruct (mc_moments_step N y (mc_init_moments (Nat.eqb N 0) y a)) as [a2|] eqn:EM; [|discriminate].
      assert (X : mc_bins a2 = BNone). { unfold mc_moments_step in EM. destruct (mc_center _); [|discriminate]. unfold rbind in EM.
        destruct (aop _ _ _); [|discriminate]. destruct (assign _ _); [|discriminate]. destruct (mc_moments _); [|discriminate]. destruct (mc_mean _); [|discriminate].
        destruct (cumulate_all _ _ _ _); [|discriminate]. destruct (cumulate _ _ _ _); [|discriminate]. injection EM as <-. cbn [mc_bins]. unfold mc_init_moments. destruct (Nat.eqb N 0); auto. }
      unfold mc_update_histogram in E1. rewrite X in E1. injection E1 as <- <-. auto.
    - unfold mc_update in E1. destruct (mc_sample (mc_use a) x ax) as [y|]; [|discriminate]. unfold mc_update_moments in E1.
      destruct (mc_moments_step N y (mc_init_moments (Nat.eqb N 0) y a)) as [a2|] eqn:EM; [|discriminate].
      assert (X : mc_bins a2 = BNone /\ mc_counts a2 = None). { unfold mc_moments_step in EM. destruct (mc_center _); [|discriminate]. unfold rbind in EM.
        destruct (aop _ _ _); [|discriminate]. destruct (assign _ _); [|discriminate]. destruct (mc_moments _); [|discriminate]. destruct (mc_mean _); [|discriminate].
        destruct (cumulate_all _ _ _ _); [|discriminate]. destruct (cumulate _ _ _ _); [|discriminate]. injection EM as <-. cbn [mc_bins mc_counts]. unfold mc_init_moments. destruct (Nat.eqb N 0); auto. }
      destruct X as [X1 X2]. unfold mc_update_histogram in E1. rewrite X1 in E1. injection E1 as <- <-. auto. }
  pose proof (updates_inv auto use v (mc_new BNone range use) _ n a eq_refl I HL HF H) as (P & _).
  destruct (G _ 0%nat (mc_new BNone range use) n a HF eq_refl eq_refl H) as [B C]. unfold mc_getitem. rewrite B. unfold rbind. destruct (Nat.eqb_spec n 0); [lia|]. unfold sub_opt, rbind.
  destruct (mc_mean a); [|eauto]. destruct (sub_arr a0 ix); [|eauto]. destruct (mc_moments a); [|eauto]. match goal with |- context [match ?x with Ok _ => _ | Err _ => _ end] => destruct x end; [|eauto].
  rewrite C. eauto.
Qed.
(** an instance obtained by indexing one with data cannot be updated *)
Theorem C48_update_refused N a ix c x v : (0 < N)%nat -> mc_getitem N a ix = Ok c -> sample_ok "all" v x ->
  mc_update auto N c (fst x) (snd x) = ((N, c), Err AttributeError).
Proof.
  intros HN HG HS. assert (X : mc_use c = "all"%string /\ mc_center c = None).
  { unfold mc_getitem, rbind in HG. destruct (Nat.eqb_spec N 0); [lia|]. destruct (match mc_bins a with BNone => _ | _ => _ end) as [[b r]|]; [|discriminate].
    destruct (sub_opt (mc_mean a) ix); [|discriminate]. match type of HG with match ?x with _ => _ end = _ => destruct x end; [|discriminate].
    destruct (sub_opt (mc_counts a) ix); [|discriminate]. destruct (sub_opt (mc_outside a) ix); [|discriminate]. injection HG as <-. auto. }
  destruct X as [XU XC]. destruct (mc_sample_ok "all" v x HS) as (y & m & EY & _). unfold mc_update. rewrite XU, EY. destruct (Nat.eqb_spec N 0); [lia|].
  unfold mc_update_moments, mc_init_moments, mc_moments_step. rewrite XC. reflexivity.
Qed.
(** an instance obtained by indexing an empty one: updating it makes its parent unusable *)
Theorem C48_parent_lost bins range use ix c v x n c' v' y : mc_getitem 0 (mc_new bins range use) ix = Ok c -> sample_ok "all" v x -> bins_for v (mc_bins c) ->
  mc_update auto 0 c (fst x) (snd x) = ((n, c'), Ok tt) -> sample_ok use v' y ->
  mc_update auto n (mc_new bins range use) (fst y) (snd y) = ((n, mc_new bins range use), Err AttributeError).
Proof.
  intros HG HS HB HU HY.
  assert (XU : mc_use c = "all"%string).
  { unfold mc_getitem, rbind in HG. simpl in HG. destruct (match bins with BNone => _ | _ => _ end) as [[b r]|]; [|discriminate]. injection HG as <-. reflexivity. }
  destruct (update_first auto "all" v c x n c' XU HS HB HU) as (P & _). destruct (mc_sample_ok use v' y HY) as (z & m & EY & _).
  unfold mc_update. simpl mc_use. rewrite EY. destruct (Nat.eqb_spec n 0); [lia|]. reflexivity.
Qed.
Lemma resync_full use v N D E a c ix : inv use v N D (Some E) a -> inb v ix -> (0 < N)%nat -> forall b, mc_bins c = BObj b -> shp b = [] -> dat b [] = Some (E ix) ->
  mc_mean (mc_resync a c ix) = mc_mean c /\ mc_moments (mc_resync a c ix) = mc_moments c /\ mc_outside (mc_resync a c ix) = mc_outside c /\
  mc_histogram N (mc_resync a c ix) = Ok (bin_counts (E ix) (D ix), E ix).
Proof.
  intros (HU & (ctr & mean & m1 & m2 & m3 & m4 & EC & EME & EMO & SC & SME & S1 & S2 & S3 & S4 & HM) & (b' & cc & o & EB & ECo & EO & SB & SCo & SO & HH)) Hix HN b CB SBB DB.
  unfold mc_resync. rewrite ECo, EME, EMO, EO, SME. rewrite (inb_length v ix Hix), Nat.eqb_refl. cbn [mc_mean mc_moments mc_outside]. do 3 (split; [reflexivity|]).
  unfold mc_histogram. destruct (Nat.eqb_spec N 0); [lia|]. cbn [mc_bins mc_counts]. rewrite CB. cbn [shp]. rewrite SCo, skipn_all2 by lia.
  simpl. rewrite app_nil_r. destruct (HH ix Hix) as (_ & _ & -> & _). rewrite DB. reflexivity.
Qed.
(** when the parent is updated, an instance obtained from a complete index keeps the old mean, moments and number of paths outside, but has
    the new number of paths and the new counts *)
Theorem C48_stale use bins range v l1 l2 n1 a1 n2 a2 : bins_for v bins -> bins <> BNone -> l1 <> [] ->
  List.Forall (sample_ok use v) l1 -> List.Forall (sample_ok use v) l2 ->
  mc_updates auto 0 (mc_new bins range use) l1 = ((n1, a1), Ok tt) -> mc_updates auto n1 a1 l2 = ((n2, a2), Ok tt) ->
  forall ix, inb v ix -> exists c edges, mc_getitem n1 a1 ix = Ok c /\ let c2 := mc_resync a2 c ix in
    mc_mean c2 = mc_mean c /\ mc_moments c2 = mc_moments c /\
    mc_histogram n2 c2 = Ok (bin_counts edges (data_of use (l1 ++ l2) ix), edges) /\
    mc_outpaths n2 c2 = Ok (count (outside edges) (data_of use l1 ix)) /\
    (fold_right Z.add 0 (bin_counts edges (data_of use (l1 ++ l2) ix)) + count (outside edges) (data_of use l1 ix) =
       Z.of_nat n2 - count (outside edges) (data_of use l2 ix))%Z.
Proof.
  intros HB HN HL HF1 HF2 H1 H2 ix Hix. destruct (updates_inv auto use v (mc_new bins range use) l1 n1 a1 eq_refl HB HL HF1 H1) as (P1 & E & I1 & HE).
  destruct E as [E|]; [|contradiction]. destruct (updates_next auto use v (Some E) l2 n1 _ a1 P1 I1 HF2) as (n3 & a3 & E3 & LE & I3). rewrite E3 in H2. injection H2 as -> ->.
  destruct (getitem_full use v n1 _ E a1 ix P1 I1 Hix) as (c & G1 & G2 & _ & G3 & G4 & _). exists c, (E ix). split; [auto|].
  assert (CB : exists b, mc_bins c = BObj b /\ shp b = [] /\ dat b [] = Some (E ix) /\ exists o, mc_outside c = Some o /\ shp o = [] /\ dat o [] = count (outside (E ix)) (data_of use l1 ix)).
  { destruct I1 as (HU & (ctr & mean & m1 & m2 & m3 & m4 & EC & EME & EMO & SC & SME & S1 & S2 & S3 & S4 & HM) & (b & cc & o & EB & ECo & EO & SB & SCo & SO & HH)).
    unfold mc_getitem in G1. rewrite EB, EME, EMO, ECo, EO in G1. rewrite (sub_full b v ix SB Hix) in G1. cbv beta iota delta [rbind] in G1. destruct (Nat.eqb_spec n1 0); [lia|].
    unfold sub_opt in G1. rewrite (sub_full mean v ix SME Hix), (sub_full m1 v ix S1 Hix), (sub_full m2 v ix S2 Hix), (sub_full m3 v ix S3 Hix), (sub_full m4 v ix S4 Hix),
      (sub_full cc v ix SCo Hix), (sub_full o v ix SO Hix) in G1. cbv beta iota delta [rbind] in G1. injection G1 as <-. destruct (HH ix Hix) as (Q1 & _ & _ & Q2).
    eexists. split; [reflexivity|]. split; [reflexivity|]. cbn [dat]. rewrite app_nil_r. split; [auto|]. eexists. split; [reflexivity|]. split; [reflexivity|]. cbn [dat]. rewrite app_nil_r. auto. }
  destruct CB as (b & CB & SB & DB & o & CO & SO & DO).
  destruct (resync_full use v n2 _ E a2 c ix I3 Hix ltac:(lia) b CB SB DB) as (R1 & R2 & R3 & R4). cbv zeta. split; [auto|]. split; [auto|].
  assert (DD : forall jx, (data_of use l1 jx ++ data_of use l2 jx)%list = data_of use (l1 ++ l2) jx) by (intro; unfold data_of; rewrite flat_map_app; auto).
  cbv beta in R4. rewrite DD in R4. split; [exact R4|]. split; [unfold mc_outpaths; rewrite R4, R3, CO; cbv beta iota delta [rbind]; rewrite SO; simpl; rewrite DO; auto|].
  destruct I3 as (_ & HM & (b' & cc & o' & _ & _ & _ & _ & _ & _ & HH)). destruct (HH ix Hix) as (_ & NE & _).
  pose proof (bins_conserve (E ix) (data_of use (l1 ++ l2) ix) NE) as BC. unfold zsum in BC. rewrite <- DD in BC at 2. rewrite count_app in BC.
  assert (L : List.length (data_of use (l1 ++ l2) ix) = n2).
  { rewrite <- DD. destruct HM as (? & ? & ? & ? & ? & ? & _ & _ & _ & _ & _ & _ & _ & _ & _ & HD). apply (HD ix Hix). }
  rewrite L in BC. lia.
Qed.

(** *** C49 *)
(** after a failing first update every further update fails as well, whatever the bins were and the samples are *)
Theorem C49_unusable use bins range v x n a e : (exists ix, inb v ix) -> sample_ok use v x ->
  mc_update auto 0 (mc_new bins range use) (fst x) (snd x) = ((n, a), Err e) ->
  n = 0%nat /\ forall l v' y, List.Forall (fun z => exists w, (exists ix, inb w ix) /\ sample_ok use w z) l -> (exists ix, inb v' ix) -> sample_ok use v' y ->
    exists a1 e1, mc_update auto 0 (snd (fold_left (fun s z => fst (mc_update auto (fst s) (snd s) (fst z) (snd z))) l (n, a))) (fst y) (snd y) = ((0%nat, a1), Err e1) /\
      fst (fold_left (fun s z => fst (mc_update auto (fst s) (snd s) (fst z) (snd z))) l (n, a)) = 0%nat.
Proof.
  intros NE HS H. destruct (update_bricks auto use v (mc_new bins range use) x n a e eq_refl NE HS H) as (-> & BR & HU). split; [auto|].
  clear H. revert a BR HU. intros a BR HU l. revert a BR HU. induction l as [|z l IH]; intros a BR HU v' y HF NE' HY.
  - destruct (bricked_update auto use v' a y HU NE' HY BR) as (a1 & e1 & E & _). exists a1, e1. simpl. auto.
  - pose proof (Forall_inv_tail HF) as HF'. destruct (Forall_inv HF) as (w & NW & HW). destruct (bricked_update auto use w a z HU NW HW BR) as (a1 & e1 & E & BR1 & U1).
    cbn [fold_left]. change (fst (mc_update auto (fst (0%nat, a)) (snd (0%nat, a)) (fst z) (snd z))) with (fst (mc_update auto 0 a (fst z) (snd z))). rewrite E. change (fst (0%nat, a1, Err e1)) with (0%nat, a1). apply (IH a1 BR1 U1 v' y); auto.
Qed.
End P.

(** *** examples and counterexamples *)
Section Ex.
Definition autoR : string -> list R -> option (R * R) -> res nat := fun _ _ _ => Ok 3%nat.
Definition autoZ : string -> list Z -> option (Z * Z) -> res nat := fun _ _ _ => Ok 3%nat.
Definition vecR (l : list R) : arr R := mkArr [List.length l] (fun ix => nth (hd 0%nat ix) l 0).
Definition vecZ (l : list Z) : arr Z := mkArr [List.length l] (fun ix => nth (hd 0%nat ix) l 0%Z).
(* a table: rows are components, columns are paths *)
Definition tabZ (m n : nat) (l : list Z) : arr Z := mkArr [m; n] (fun ix => match ix with [i; j] => nth (i*n + j) l 0%Z | _ => 0%Z end).
Definition edgesZ (l : list Z) : bspec Z := BArr (vecZ l).
Definition show {A} (a : option (arr A)) : option (list A) := option_map ravel a.

(** two batches of scalars, (1, 5) and (3): mean 3, variance 8/3 *)
Definition exl : list (arr R * Z) := [(vecR [1; 5], 0%Z); (vecR [3], 0%Z)].
Lemma ex_ok : List.Forall (sample_ok "all" []) exl.
Proof. repeat constructor; [exists 2%nat|exists 1%nat]; (split; [exists 0%nat; repeat split|split; [lia|auto]]). Qed.
Example ex_C44 : exists n a mean var, mc_updates autoR 0 (mc_new (V := R) BNone None "all") exl = ((n, a), Ok tt) /\
  n = 3%nat /\ mc_mean a = Some mean /\ dat mean [] = 3 /\ mc_var n a = Ok var /\ dat var [] = 8/3.
Proof.
  destruct (C44_succeeds autoR "all" None [] exl ltac:(discriminate) ex_ok) as (n & a & E).
  destruct (C44_statistics autoR "all" BNone None [] exl n a I ltac:(discriminate) ex_ok E) as (mean & var & st & sk & ku & E1 & E2 & _ & _ & _ & _ & _ & _ & _ & _ & G).
  destruct (G [] ltac:(constructor)) as (N & M & _ & _ & V). unfold data_of in *. simpl in N, M, V. subst n.
  exists 3%nat, a, mean, var. do 3 (split; [auto|]). split; [rewrite M; unfold average; simpl; lra|]. split; [auto|].
  destruct (V ltac:(lia)) as [-> _]. unfold central, average. simpl. lra.
Qed.
(** the same by running the model on integers: bins [0, 2), [2, 4], values 1, 5, 3; one path outside *)
Example ex_C45_run : match mc_updates autoZ 0 (mc_new (edgesZ [0; 2; 4]%Z) None "all") [(vecZ [1; 5]%Z, 0%Z); (vecZ [3]%Z, 0%Z)] with
  ((n, a), r) => (n, r, mc_histogram n a, mc_outpaths n a, show (mc_mean a)) end = (3%nat, Ok tt, Ok ([1; 1]%Z, [0; 2; 4]%Z), Ok 1%Z, Some [3%Z]).
Proof. vm_compute. reflexivity. Qed.
(** two components, equal bins from data *)
Example ex_C45_bins : match mc_updates autoZ 0 (mc_new (BInt 2) None "all") [(tabZ 2 3 [0; 2; 4; 10; 14; 12]%Z, 1%Z); (tabZ 3 2 [3; 11; 9; 20; 1; 10]%Z, 0%Z)] with
  ((n, a), r) => (n, r, rmap (mc_histogram n) (mc_getitem n a [0%nat]), rmap (mc_histogram n) (mc_getitem n a [1%nat]), mc_histogram n a) end
  = (6%nat, Ok tt, Ok (Ok ([2; 3]%Z, [0; 2; 4]%Z)), Ok (Ok ([3; 2]%Z, [10; 12; 14]%Z)), Err IndexError).
Proof. vm_compute. reflexivity. Qed.
Example ex_C46_run : match mc_updates autoZ 0 (mc_new BNone None "even") [(vecZ [1; 3; 5; 7]%Z, 0%Z)] with ((n, a), r) => (n, r, show (mc_mean a)) end = (2%nat, Ok tt, Some [4%Z])
  /\ snd (mc_updates autoZ 0 (mc_new BNone None "even") [(vecZ [1; 3; 5]%Z, 0%Z)]) = Err ValueError
  /\ match mc_updates autoZ 0 (mc_new BNone None "odd") [(vecZ [1; 3; 5; 11]%Z, 0%Z)] with ((n, a), r) => (n, r, show (mc_mean a)) end = (2%nat, Ok tt, Some [(-3)%Z]).
Proof. vm_compute. auto. Qed.
(** a component, and its statistics *)
Example ex_C48_run : match mc_updates autoZ 0 (mc_new (BInt 2) None "all") [(tabZ 2 2 [0; 4; 10; 14]%Z, 1%Z)] with
  ((n, a), r) => (rmap (fun c => show (mc_mean c)) (mc_getitem n a [1%nat]), rmap (fun c => snd (mc_update autoZ n c (vecZ [11%Z]) 0)) (mc_getitem n a [1%nat])) end
  = (Ok (Some [12%Z]), Ok (Err AttributeError)).
Proof. vm_compute. reflexivity. Qed.
(** after an update of the parent the component has 3 paths, the mean of the first two, and counts that do not add up *)
Example ex_C48_stale : match mc_updates autoZ 0 (mc_new (BInt 2) None "all") [(tabZ 2 2 [0; 4; 10; 14]%Z, 1%Z)] with ((n, a), _) =>
   match mc_getitem n a [1%nat], mc_updates autoZ n a [(tabZ 2 1 [2; 30]%Z, 1%Z)] with Ok c, ((n2, a2), Ok _) => let c2 := mc_resync a2 c [1%nat] in
     Some (n2, show (mc_mean c2), rmap (fun x => show (mc_mean x)) (mc_getitem n2 a2 [1%nat]), mc_histogram n2 c2, mc_outpaths n2 c2, rmap (mc_outpaths n2) (mc_getitem n2 a2 [1%nat]))
   | _, _ => None end end = Some (3%nat, Some [12%Z], Ok (Some [18%Z]), Ok ([1; 1]%Z, [10; 12; 14]%Z), Ok 0%Z, Ok (Ok 1%Z)).
Proof. vm_compute. reflexivity. Qed.
(** edges out of order, and every later update fails; so do valid edges for another number of components *)
Example ex_C49_run : let s := mc_updates autoZ 0 (mc_new (edgesZ [4; 2; 0]%Z) None "all") [(vecZ [1; 3]%Z, 0%Z)] in
  snd s = Err ValueError /\ fst (fst s) = 0%nat /\ snd (mc_updates autoZ 0 (snd (fst s)) [(vecZ [1; 3]%Z, 0%Z)]) = Err ValueError.
Proof. vm_compute. auto. Qed.
Example ex_C49_shape : let s := mc_updates autoZ 0 (mc_new (edgesZ [0; 2; 4]%Z) None "all") [(tabZ 2 2 [0; 4; 1; 2]%Z, 1%Z)] in
  snd s = Err ValueError /\ snd (mc_updates autoZ 0 (mc_new (edgesZ [0; 2; 4]%Z) None "all") [(vecZ [1; 3]%Z, 0%Z)]) = Ok tt /\
  snd (mc_updates autoZ 0 (snd (fst s)) [(vecZ [1; 3]%Z, 0%Z)]) <> Ok tt.
Proof. vm_compute. repeat split; auto; discriminate. Qed.
(** updates are not atomic: a later update that raises may change the mean (two data points of 2 components, mean 2 and 12; then
    one data point of shape (1, 2)) *)
Theorem C49_atomic_refuted : exists (a a' : mc Z) x, mc_updates autoZ 0 (mc_new (BInt 2) None "all") [(tabZ 2 2 [0; 4; 10; 14]%Z, 1%Z)] = ((2%nat, a), Ok tt) /\
  mc_update autoZ 2 a x (-1) = ((2%nat, a'), Err IndexError) /\ show (mc_mean a) = Some [2; 12]%Z /\ show (mc_mean a') = Some [4; 14]%Z.
Proof.
  do 2 eexists. exists (mkArr [1; 2; 1]%nat (fun ix => nth (nth 1 ix 0%nat) [8; 18]%Z 0%Z)). split; [reflexivity|]. split; [reflexivity|]. vm_compute. auto.
Qed.
(** a later sample that broadcasts to the shape (1,) is accepted, but only the first of its values is counted: others are
    taken as outside the bins *)
Theorem C45_leading_axes_refuted : exists (a : mc Z), mc_updates autoZ 0 (mc_new (BInt 2) None "all") [(tabZ 1 2 [0; 4]%Z, 1%Z); (vecZ [1; 2; 3]%Z, 0%Z)] = ((5%nat, a), Ok tt) /\
  mc_histogram 5 a = Ok ([2; 1]%Z, [0; 2; 4]%Z) /\ mc_outpaths 5 a = Ok 2%Z.
Proof. eexists. split; [reflexivity|]. vm_compute. auto. Qed.
End Ex.

Print Assumptions C44_statistics. Print Assumptions C44_stderr. Print Assumptions C44_succeeds. Print Assumptions C44_grouping.
Print Assumptions C45_conservation. Print Assumptions C45_given_edges. Print Assumptions C45_equal_bins. Print Assumptions C45_single.
Print Assumptions C46_even. Print Assumptions C46_odd. Print Assumptions C46_refused.
Print Assumptions C48_component. Print Assumptions C48_no_histogram. Print Assumptions C48_update_refused. Print Assumptions C48_parent_lost. Print Assumptions C48_stale.
Print Assumptions C49_unusable. Print Assumptions C49_atomic_refuted. Print Assumptions C45_leading_axes_refuted.
