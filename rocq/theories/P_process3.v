(** Properties of the process class: derivatives and integrals (C40), distributions (C41), summaries (C42). *)
From Coq Require Import String List Arith Bool Lia ZArith Reals Lra.
From Coquelicot Require Import Complex.
From Verif Require Import Base BaseNum BaseArr BaseNd BaseIdx M_mc M_process S_mc S_process L_nd L_mc L_mc2 L_interp L_process L_process2 P_process P_process2.
Import ListNotations.
Local Open Scope R_scope.
Implicit Types (p q : proc R).

Lemma removelast_length {A} (l : list A) : List.length (removelast l) = (List.length l - 1)%nat.
Proof. induction l as [|x [|y l] IH]; [reflexivity|reflexivity|]. change (removelast (x :: y :: l)) with (x :: removelast (y :: l)). cbn [List.length] in *. lia. Qed.
Lemma removelast_nth {A} (l : list A) d : forall i, (S i < List.length l)%nat -> nth i (removelast l) d = nth i l d.
Proof.
  induction l as [|x [|y l] IH]; intros i H; cbn [List.length] in H; try lia. change (removelast (x :: y :: l)) with (x :: removelast (y :: l)). destruct i; [reflexivity|].
  cbn [nth]. apply IH. cbn [List.length]. lia.
Qed.
Lemma wf_shape p : wf p -> shp (px p) = List.length (pt p) :: comp p.
Proof. intros [_ [r H]]. unfold comp. rewrite H. reflexivity. Qed.

Lemma process_slice_total (t : list R) x : t <> [] -> (exists r, shp x = List.length t :: r) -> process_slice t x = Ok (mkProc t x Linear).
Proof. intros H1 H2. unfold process_slice. destruct t; [contradiction|]. apply process_from_total; auto. Qed.
Lemma nth_firstn_lt {A} (l : list A) d : forall n i, (i < n)%nat -> nth i (firstn n l) d = nth i l d.
Proof. induction l as [|a l IH]; intros [|n] [|i] H; try lia; auto. cbn [firstn nth]. apply IH. lia. Qed.

Lemma nth_map_seq (f : nat -> R) n j : (j < n)%nat -> nth j (map f (seq 0 n)) 0 = f j.
Proof. intro H. rewrite (nth_indep _ _ (f 0%nat)) by (rewrite map_length, seq_length; auto). rewrite map_nth, seq_nth by auto. reflexivity. Qed.

(** *** C40 *)
(** differences of consecutive values, divided by a function of time increments if requested *)
Theorem C40_tdiff w fwd p : wf p -> (2 <= List.length (pt p))%nat ->
  exists q, tdiff w fwd p = Ok q /\ wf q /\ pt q = (if fwd then removelast (pt p) else tl (pt p)) /\ comp q = comp p /\
    forall i r, (S i < List.length (pt p))%nat ->
      let d := dat (px p) (S i :: r) - dat (px p) (i :: r) in
      dat (px q) (i :: r) = match w with None => d | Some w => d / w (nth (S i) (pt p) 0 - nth i (pt p) 0) end.
Proof.
  intros W N. unfold tdiff. set (t := if fwd then removelast (pt p) else tl (pt p)).
  assert (L : List.length t = (List.length (pt p) - 1)%nat) by (unfold t; destruct fwd; [apply removelast_length|destruct (pt p); simpl; lia]).
  assert (T : t <> []) by (intro T; rewrite T in L; simpl in L; lia).
  rewrite process_slice_total by (first [exact T|cbn [shp]; rewrite L; eauto]). eexists. split; [reflexivity|].
  split; [split; [exact T|exists (comp p); cbn [shp px pt]; rewrite L; reflexivity]|]. split; [reflexivity|]. split; [reflexivity|]. intros i r H. cbv zeta. cbn [px dat hd tl].
  destruct w as [w|]; [|reflexivity]. change (@nzero R _) with 0. rewrite ndiffl_nth by auto. reflexivity.
Qed.
Theorem C40_tdiff_one w fwd p : List.length (pt p) = 1%nat -> tdiff w fwd p = Err ValueError.
Proof. intro H. unfold tdiff. destruct (pt p) as [|a [|b t]]; try discriminate. destruct fwd; reflexivity. Qed.
(** sums of values times time increments *)
Theorem C40_tint p : wf p -> exists q, tint p = Ok q /\ wf q /\ pt q = pt p /\ comp q = comp p /\
  forall i r, (i < List.length (pt p))%nat ->
    dat (px q) (i :: r) = total (map (fun j => dat (px p) (j :: r) * (nth (S j) (pt p) 0 - nth j (pt p) 0)) (seq 0 i)).
Proof.
  intros W. unfold tint. rewrite process_from_total by (exists (comp p); apply wf_shape; auto). eexists. split; [reflexivity|].
  split; [split; [apply W|exists (comp p); apply (wf_shape p W)]|]. split; [reflexivity|]. split; [reflexivity|]. intros i r H. cbn [px dat hd tl].
  change (@nzero R _) with 0. set (l := map _ _).
  assert (LL : List.length l = (List.length (pt p) - 1)%nat) by (unfold l; rewrite map_length, combine_length, removelast_length, ndiffl_length; unfold column; rewrite map_length, seq_length; lia).
  rewrite cumsum_nth by (cbn [List.length]; lia). cbn [firstn]. change (total (0 :: firstn i l)) with (0 + total (firstn i l)). rewrite !Rplus_0_l. f_equal.
  apply nth_ext with (d := 0) (d' := 0); [rewrite firstn_length, map_length, seq_length; lia|]. intros j J. rewrite firstn_length in J.
  rewrite nth_firstn_lt by lia. unfold l. rewrite (map_combine_nth _ _ _ j 0 0); [|rewrite removelast_length, ndiffl_length; unfold column; rewrite map_length, seq_length; lia|rewrite removelast_length; unfold column; rewrite map_length, seq_length; lia].
  cbn [fst snd]. rewrite removelast_nth by (unfold column; rewrite map_length, seq_length; lia). rewrite ndiffl_nth by lia.
  change (column p r) with (along p r). rewrite along_nth by lia.
  rewrite nth_map_seq by lia. reflexivity.
Qed.

Lemma total_snoc l x : total (l ++ [x]) = total l + x.
Proof. unfold total. induction l as [|a l IH]; simpl; [lra|]. rewrite IH. lra. Qed.
Lemma increasing_sub t t' n : List.length t' = n -> (n <= List.length t)%nat -> (forall i, (i < n)%nat -> nth i t' 0 = nth i t 0) -> increasing t -> increasing t'.
Proof. intros L H E I i j A B. rewrite !E by lia. apply I; lia. Qed.

(** differentiating the integral gives back the process, without its last time point *)
Theorem C40_tint_tder p : wf p -> increasing (pt p) -> (2 <= List.length (pt p))%nat ->
  exists q q', tint p = Ok q /\ tder q = Ok q' /\ wf q' /\ pt q' = removelast (pt p) /\ comp q' = comp p /\
    forall i r, (S i < List.length (pt p))%nat -> dat (px q') (i :: r) = dat (px p) (i :: r).
Proof.
  intros W I N. destruct (C40_tint p W) as (q & Q1 & Q2 & Q3 & Q4 & Q5). rewrite <- Q3 in N.
  destruct (C40_tdiff (Some (fun dt => dt)) true q Q2 N) as (q' & R1 & R2 & R3 & R4 & R5). rewrite Q3 in *. exists q, q'.
  split; [exact Q1|]. split; [exact R1|]. split; [exact R2|]. split; [exact R3|]. split; [congruence|]. intros i r H. rewrite R5 by auto. cbv zeta. rewrite !Q5 by lia.
  rewrite seq_S, map_app. cbn [map]. rewrite total_snoc. cbn [Nat.add]. pose proof (I i (S i) ltac:(lia) H). field. lra.
Qed.
(** integrating the derivative gives back the process less its first value, without its last time point *)
Theorem C40_tder_tint p : wf p -> increasing (pt p) -> (2 <= List.length (pt p))%nat ->
  exists q q', tder p = Ok q /\ tint q = Ok q' /\ wf q' /\ pt q' = removelast (pt p) /\ comp q' = comp p /\
    forall i r, (S i < List.length (pt p))%nat -> dat (px q') (i :: r) = dat (px p) (i :: r) - dat (px p) (0%nat :: r).
Proof.
  intros W I N. destruct (C40_tdiff (Some (fun dt => dt)) true p W N) as (q & Q1 & Q2 & Q3 & Q4 & Q5).
  destruct (C40_tint q Q2) as (q' & R1 & R2 & R3 & R4 & R5). exists q, q'. split; [exact Q1|]. split; [exact R1|]. split; [exact R2|]. split; [congruence|]. split; [congruence|].
  intros i r H. rewrite R5 by (rewrite Q3, removelast_length; lia). rewrite Q3. induction i as [|i IH]; [simpl; lra|].
  rewrite seq_S, map_app. cbn [map]. rewrite total_snoc, IH by lia. cbn [Nat.add]. rewrite Q5 by lia. cbv zeta. rewrite !removelast_nth by lia.
  pose proof (I i (S i) ltac:(lia) ltac:(lia)). field. lra.
Qed.
(** integrals start at zero, and can be taken on a timeline of one point *)
Theorem C40_tint_zero p q r : wf p -> tint p = Ok q -> dat (px q) (0%nat :: r) = 0.
Proof. intros W E. destruct (C40_tint p W) as (q' & Q1 & _ & _ & _ & Q5). rewrite E in Q1. injection Q1 as <-. rewrite Q5 by (apply wf_length; auto). reflexivity. Qed.
Example C40_ex : exists q q', tint rp = Ok q /\ tder rp = Ok q' /\ dat (px q) [2; 0]%nat = 40 /\ dat (px q') [0; 0]%nat = 5 /\ dat (px q') [1; 0]%nat = -15.
Proof.
  destruct rp_wf as [W _]. destruct (C40_tint rp W) as (q & Q1 & _ & _ & _ & Q5). destruct (C40_tdiff (Some (fun dt => dt)) true rp W) as (q' & R1 & _ & _ & _ & R5); [simpl; lia|].
  exists q, q'. split; [exact Q1|]. split; [exact R1|]. rewrite Q5 by (simpl; lia). rewrite !R5 by (simpl; lia). simpl. repeat split; lra.
Qed.
Print Assumptions C40_tdiff.
Print Assumptions C40_tdiff_one.
Print Assumptions C40_tint.
Print Assumptions C40_tint_tder.
Print Assumptions C40_tder_tint.
Print Assumptions C40_tint_zero.

(** *** C41 *)
Definition zp2r : proc R := mkProc [0; 2] (mkArr [2; 3]%nat (fun ix => match ix with [i; j] => nth (3*i + j) [1; 3; 2; 5; 4; 7] 0 | _ => 0 end)) Linear.
Lemma reshape_ones {V} (x : arr V) m k : exists y, reshape x (repeat 1%nat m ++ shp x ++ repeat 1%nat k) = Ok y /\ shp y = repeat 1%nat m ++ shp x ++ repeat 1%nat k /\
  forall ix, inb (shp x) ix -> dat y (repeat 0%nat m ++ ix ++ repeat 0%nat k) = dat x ix.
Proof.
  unfold reshape. rewrite !size_app, !size_ones, Nat.mul_1_l, Nat.mul_1_r, Nat.eqb_refl. eexists. split; [reflexivity|]. split; [reflexivity|]. intros ix H. cbn [dat].
  rewrite flat_flatr by (rewrite !app_length, !repeat_length, (inb_length _ _ H); reflexivity). rewrite flatr_ones.
  rewrite <- (app_nil_r (repeat 1%nat k)), <- (app_nil_r (repeat 0%nat k)). rewrite flatr_insert by (apply inb_length; auto). rewrite !app_nil_r, unflat_flatr by auto. reflexivity.
Qed.

Lemma on_values_entries {B} (op : R -> R -> B) p t u ts y c : at_times p t = (List.length ts, ts, y) -> shp y = ts ++ c ->
  exists z, on_values op p t u = Ok z /\ shp z = ts ++ shp u ++ c /\
    forall ix jx r, inb ts ix -> inb (shp u) jx -> inb c r -> dat z (ix ++ jx ++ r) = op (dat y (ix ++ r)) (dat u jx).
Proof.
  intros T Y. unfold on_values. rewrite T. assert (E : (List.length (shp y) - List.length ts)%nat = List.length c) by (rewrite Y, app_length; lia). rewrite E.
  destruct (reshape_ones u (List.length ts) (List.length c)) as (uu & U1 & U2 & U3). rewrite U1. cbv beta iota delta [rbind].
  replace (skipn (List.length ts) (shp y)) with c by (rewrite Y, skipn_app_exact; auto). destruct (reshape_insert y ts (List.length (shp u)) c Y) as (yy & Y1 & Y2 & Y3). rewrite Y1.
  unfold aop. assert (A : agree (shp yy) (shp uu)).
  { rewrite Y2, U2. apply agree_app; [apply agree_ones_r|]. apply agree_app; [apply agree_ones_l|apply agree_ones_r]. }
  destruct (bshape_agree (shp yy) (shp uu) (agree_length _ _ A)) as [_ BB]. rewrite (BB A). eexists. split; [reflexivity|]. split.
  - cbn [shp]. rewrite Y2, U2. rewrite !wide_app by (rewrite ?repeat_length; auto). rewrite !wide_ones_r, wide_ones_l. reflexivity.
  - intros ix jx r I1 I2 I3. cbn [dat]. unfold bget. rewrite Y2, U2. assert (L1 := inb_length _ _ I1). assert (L2 := inb_length _ _ I2). assert (L3 := inb_length _ _ I3).
    rewrite !bidx_pick by (rewrite !app_length, ?repeat_length; lia). rewrite !pick_app by (rewrite ?repeat_length; auto).
    rewrite (pick_inb ts), (pick_inb (shp u)), (pick_inb c) by auto. rewrite !pick_ones by auto. rewrite U3, Y3 by auto. reflexivity.
Qed.
Lemma at_times_entries p t : wf p -> exists y, at_times p t = (List.length (sample_times p t), sample_times p t, y) /\ shp y = sample_times p t ++ comp p /\
  forall ix r, inb (sample_times p t) ix -> dat y (ix ++ r) = match t with None => dat (px p) (ix ++ r) | Some t => value p None (dat t ix) r end.
Proof.
  intro W. destruct t as [t|]; eexists; (split; [reflexivity|]).
  - split; [reflexivity|]. intros ix r H. apply interp_entry; auto.
  - split; [apply wf_shape; auto|]. reflexivity.
Qed.
Lemma comp_paths p v k : wf p -> comp p = v ++ [k] -> paths p = k.
Proof. intros W E. unfold paths. rewrite (wf_shape p W), E. rewrite app_comm_cons. apply last_snoc. Qed.
(** an average over paths *)
Lemma mean_entries {B C} (op : R -> R -> B) (f : list B -> C) p t u v k : wf p -> comp p = v ++ [k] ->
  exists z, on_values op p t u = Ok z /\ shp (mean_axis z f) = sample_times p t ++ shp u ++ v /\
    forall ix jx r, inb (sample_times p t) ix -> inb (shp u) jx -> inb v r ->
      dat (mean_axis z f) (ix ++ jx ++ r) = f (map (fun y => op y (dat u jx)) (sample p t ix r)).
Proof.
  intros W E. destruct (at_times_entries p t W) as (y & T & Y & D). destruct (on_values_entries op p t u _ y _ T Y) as (z & Z1 & Z2 & Z3). exists z. split; [exact Z1|].
  rewrite E in *. rewrite !app_assoc in Z2. unfold mean_axis. cbn [shp dat]. rewrite Z2, removelast_snoc, last_snoc, app_assoc. split; [reflexivity|]. intros ix jx r I1 I2 I3. f_equal.
  unfold sample. rewrite map_map, (comp_paths p v k W E). apply map_ext_in. intros j J. apply in_seq in J. rewrite <- !app_assoc, Z3 by (auto; apply inb_snoc; auto; lia). rewrite D by auto. reflexivity.
Qed.

Lemma dist_args_two {A} (t : option (arr A)) x : dist_args t (Some x) = Ok (t, x).
Proof. destruct t; reflexivity. Qed.

(** which argument is what *)
Theorem C41_arguments p x : cdf p (Some x) None = cdf p None (Some x) /\ cdf p None None = Err TypeError /\
  (forall C (ce : R -> C) cm u, chf ce cm p (Some u) None = chf ce cm p None (Some u)) /\ (forall C (ce : R -> C) cm, chf ce cm p None None = Err TypeError).
Proof. repeat split; reflexivity. Qed.
(** the fraction of paths not above x, at each time, for each component *)
Theorem C41_cdf p t x v k : wf p -> comp p = v ++ [k] ->
  exists f, cdf p t (Some x) = Ok f /\ shp f = sample_times p t ++ shp x ++ v /\
    forall ix jx r, inb (sample_times p t) ix -> inb (shp x) jx -> inb v r -> dat f (ix ++ jx ++ r) = fraction (sample p t ix r) (dat x jx).
Proof.
  intros W E. unfold cdf.
  destruct (mean_entries (fun y x => negb (nlt x y)) (fun l => ndiv (V := R) (nofnat (List.length (filter (fun b => b) l))) (nofnat (paths p))) p t x v k W E) as (z & Z1 & Z2 & Z3).
  rewrite dist_args_two. cbv beta iota delta [rbind]. rewrite Z1.
  eexists. split; [reflexivity|]. split; [exact Z2|]. intros ix jx r I1 I2 I3. etransitivity; [apply Z3; auto|]. unfold fraction. change (ndiv (V := R)) with Rdiv. change (nofnat (V := R)) with INR. f_equal; f_equal; f_equal.
  - clear Z3. induction (sample p t ix r) as [|y l IH]; auto. cbn [map filter]. destruct (Rle_dec y (dat x jx)) as [L|L].
    + replace (nlt (dat x jx) y) with false by (symmetry; apply nlt_R_false; lra). cbn [negb List.length]. rewrite IH. reflexivity.
    + replace (nlt (dat x jx) y) with true by (symmetry; apply nlt_R; lra). exact IH.
  - unfold sample. rewrite map_length, seq_length. reflexivity.
Qed.
(** fractions are between 0 and 1, do not decrease, are 0 (1) exactly when no (every) value is not above x *)
Theorem C41_range l x : (0 < List.length l)%nat -> 0 <= fraction l x <= 1 /\ (fraction l x = 1 <-> forall y, In y l -> y <= x) /\ (fraction l x = 0 <-> forall y, In y l -> x < y).
Proof.
  intro N. unfold fraction. assert (P : 0 < INR (List.length l)) by (apply lt_0_INR; auto).
  assert (G : (List.length (filter (fun y => if Rle_dec y x then true else false) l) <= List.length l)%nat /\
    (List.length (filter (fun y => if Rle_dec y x then true else false) l) = List.length l <-> forall y, In y l -> y <= x) /\
    (List.length (filter (fun y => if Rle_dec y x then true else false) l) = 0%nat <-> forall y, In y l -> x < y)).
  { clear. induction l as [|a l (IH1 & IH2 & IH3)]; [simpl; intuition|]. cbn [filter]. destruct (Rle_dec a x) as [L|L]; cbn [List.length].
    - split; [lia|]. split; split.
      + intros H y [<-|Y]; [auto|]. apply IH2; auto; lia.
      + intro H. f_equal. apply IH2. intros y Y. apply H. right; auto.
      + intro H. lia.
      + intro H. exfalso. specialize (H a (or_introl eq_refl)). lra.
    - split; [lia|]. split; split.
      + intro H. lia.
      + intro H. exfalso. apply L, H. left; auto.
      + intros H y [<-|Y]; [lra|]. apply IH3; auto.
      + intro H. apply IH3. intros y Y. apply H. right; auto. }
  destruct G as (G1 & G2 & G3). set (m := List.length (filter _ l)) in *. split; [split|split].
  - apply Rmult_le_pos; [apply pos_INR|left; apply Rinv_0_lt_compat; exact P].
  - apply Rmult_le_reg_r with (INR (List.length l)); [exact P|]. unfold Rdiv. rewrite Rmult_assoc, Rinv_l by lra. rewrite Rmult_1_r, Rmult_1_l. apply le_INR; auto.
  - rewrite <- G2. split; intro H.
    + apply INR_eq. apply Rmult_eq_reg_r with (/ INR (List.length l)); [|apply Rinv_neq_0_compat; lra]. rewrite Rinv_r by lra. exact H.
    + rewrite H. field. lra.
  - rewrite <- G3. split; intro H.
    + apply INR_eq. apply Rmult_eq_reg_r with (/ INR (List.length l)); [|apply Rinv_neq_0_compat; lra]. simpl INR. rewrite Rmult_0_l. exact H.
    + rewrite H. simpl INR. unfold Rdiv. ring.
Qed.
Theorem C41_monotone l x y : x <= y -> fraction l x <= fraction l y.
Proof.
  intro H. unfold fraction. unfold Rdiv. apply Rmult_le_compat_r.
  - destruct l; [simpl; rewrite Rinv_0; lra|]. left. apply Rinv_0_lt_compat. apply lt_0_INR. simpl. lia.
  - apply le_INR. induction l as [|a l IH]; auto. cbn [filter]. destruct (Rle_dec a x), (Rle_dec a y); cbn [List.length]; try lia. exfalso. lra.
Qed.
(** characteristic functions: averages of exp(i*u*x) *)
Definition cis (x : R) : C := (cos x, sin x).
Definition caverage (l : list C) : C := Cdiv (fold_right Cplus (RtoC 0) l) (RtoC (INR (List.length l))).
Theorem C41_chf p t u v k : wf p -> comp p = v ++ [k] ->
  exists f, chf cis caverage p t (Some u) = Ok f /\ shp f = sample_times p t ++ shp u ++ v /\
    forall ix jx r, inb (sample_times p t) ix -> inb (shp u) jx -> inb v r -> dat f (ix ++ jx ++ r) = caverage (map (fun x => cis (dat u jx * x)) (sample p t ix r)).
Proof.
  intros W E. unfold chf.
  destruct (mean_entries (fun y u => cis (nmul u y)) caverage p t u v k W E) as (z & Z1 & Z2 & Z3).
  rewrite dist_args_two. cbv beta iota delta [rbind]. rewrite Z1.
  eexists. split; [reflexivity|]. split; [exact Z2|]. intros ix jx r I1 I2 I3. etransitivity; [apply Z3; auto|]. reflexivity.
Qed.
Lemma cis_mod x : Cmod (cis x) = 1.
Proof. unfold Cmod, cis. cbn [fst snd]. replace (cos x ^ 2 + sin x ^ 2) with 1; [apply sqrt_1|]. pose proof (sin2_cos2 x). unfold Rsqr in *. simpl. lra. Qed.
Theorem C41_modulus (l : list R) u : (0 < List.length l)%nat -> Cmod (caverage (map (fun x => cis (u * x)) l)) <= 1.
Proof.
  intro N. unfold caverage. rewrite map_length. assert (P : 0 < INR (List.length l)) by (apply lt_0_INR; auto).
  rewrite Cmod_div by (intro H; apply RtoC_inj in H; lra). rewrite Cmod_R, Rabs_right by lra. apply Rmult_le_reg_r with (INR (List.length l)); auto.
  unfold Rdiv. rewrite Rmult_assoc, Rinv_l, Rmult_1_r, Rmult_1_l by lra. clear. induction l as [|a l IH]; [simpl; rewrite Cmod_0; lra|].
  cbn [map fold_right]. eapply Rle_trans; [apply Cmod_triangle|]. rewrite cis_mod. cbn [List.length]. rewrite S_INR. lra.
Qed.
Theorem C41_zero (l : list R) : (0 < List.length l)%nat -> caverage (map (fun x => cis (0 * x)) l) = RtoC 1.
Proof.
  intro N. unfold caverage. rewrite map_length. assert (P : 0 < INR (List.length l)) by (apply lt_0_INR; auto).
  replace (fold_right Cplus (RtoC 0) (map (fun x => cis (0*x)) l)) with (RtoC (INR (List.length l))).
  - field. intro H. apply RtoC_inj in H. lra.
  - clear. induction l as [|a l IH]; [reflexivity|]. cbn [map fold_right List.length]. rewrite <- IH, S_INR, Rmult_0_l. unfold cis. rewrite cos_0, sin_0. unfold RtoC, Cplus. cbn [fst snd]. f_equal; ring.
Qed.
(** samples have as many values as paths *)
Theorem C41_sample p t ix r : List.length (sample p t ix r) = paths p.
Proof. unfold sample. rewrite map_length, seq_length. reflexivity. Qed.

Example C41_ex : fraction (sample zp2r None [0%nat] []) 2 = 2/3 /\ sample_times zp2r (Some (vec [1; 2])) = [2]%nat.
Proof. split; [|reflexivity]. unfold sample, fraction. cbn. destruct (Rle_dec 1 2), (Rle_dec 3 2), (Rle_dec 2 2); try (exfalso; lra). simpl. lra. Qed.
Print Assumptions C41_arguments.
Print Assumptions C41_cdf.
Print Assumptions C41_range.
Print Assumptions C41_monotone.
Print Assumptions C41_chf.
Print Assumptions C41_modulus.
Print Assumptions C41_zero.
Print Assumptions C41_sample.

(** *** C42 *)
(** a statistic across paths: same timeline and values, one path *)
Theorem C42_paths strict f p v k : wf p -> comp p = v ++ [k] -> (strict = true -> (0 < k)%nat) ->
  exists q, psummary strict f p = Ok q /\ wf q /\ pt q = pt p /\ comp q = v ++ [1%nat] /\
    forall i r, dat (px q) (i :: r ++ [0%nat]) = f (sample p None [i] r).
Proof.
  intros W E S. unfold psummary. rewrite (wf_shape p W), E, app_comm_cons, last_snoc, removelast_snoc.
  assert (G : strict && ((k =? 0)%nat && negb (size (List.length (pt p) :: v) =? 0)%nat) = false) by (destruct strict; auto; destruct (Nat.eqb_spec k 0); auto; specialize (S eq_refl); lia).
  rewrite G. rewrite process_from_total by (cbn [shp]; rewrite <- app_comm_cons; eauto). eexists. split; [reflexivity|].
  split; [split; [apply W|cbn [px shp pt]; rewrite <- app_comm_cons; eauto]|]. split; [reflexivity|]. split; [reflexivity|].
  intros i r. cbn [px dat]. rewrite app_comm_cons, removelast_snoc. f_equal. unfold sample. rewrite (comp_paths p v k W E). reflexivity.
Qed.
(** minimum and maximum are not defined without paths *)
Theorem C42_no_paths f p v : wf p -> comp p = v ++ [0%nat] -> size v <> 0%nat -> psummary true f p = Err ValueError.
Proof.
  intros W E S. unfold psummary. rewrite (wf_shape p W), E, app_comm_cons, last_snoc, removelast_snoc.
  replace (size (List.length (pt p) :: v) =? 0)%nat with false; [reflexivity|]. symmetry. apply Nat.eqb_neq. cbn [size fold_right]. assert (N := wf_length p W). unfold size in S. nia.
Qed.
(** a statistic across values: same timeline and paths, values are numbers *)
Theorem C42_values strict f p v k : wf p -> comp p = v ++ [k] -> (strict = true -> (0 < size v)%nat) ->
  exists q, vsummary strict f p = Ok q /\ wf q /\ pt q = pt p /\ comp q = [k] /\
    forall i j, dat (px q) [i; j] = f (map (fun r => dat (px p) (i :: r ++ [j])) (ndindex v)).
Proof.
  intros W E S. unfold vsummary. assert (VS : vshape p = v) by (unfold vshape; rewrite (wf_shape p W), E, app_comm_cons, removelast_snoc; reflexivity). rewrite VS.
  assert (G : strict && ((size v =? 0)%nat && negb (paths p =? 0)%nat) = false) by (destruct strict; auto; destruct (Nat.eqb_spec (size v) 0); auto; specialize (S eq_refl); lia).
  rewrite G, (wf_shape p W), E. cbn [firstn skipn app]. rewrite skipn_app_exact by reflexivity. rewrite process_from_total by (cbn [shp]; eauto). eexists. split; [reflexivity|].
  split; [split; [apply W|cbn [px shp pt]; eauto]|]. split; [reflexivity|]. split; [reflexivity|]. reflexivity.
Qed.
(** a statistic along the timeline: same values and paths, a constant process *)
Theorem C42_time f p : wf p -> exists q, tsummary f p = Ok q /\ wf q /\ pt q = firstn 1 (pt p) /\ comp q = comp p /\
  (forall r, dat (px q) (0%nat :: r) = f (along p r)) /\ (forall kind s r, value q kind s r = f (along p r)).
Proof.
  intros W. unfold tsummary. assert (N := wf_length p W). assert (L : List.length (firstn 1 (pt p)) = 1%nat) by (rewrite firstn_length; lia).
  rewrite process_from_total by (cbn [shp]; rewrite L; eauto). eexists. split; [reflexivity|].
  assert (WQ : wf (mkProc (firstn 1 (pt p)) (mkArr (1%nat :: tl (shp (px p))) (fun ix => f (column p (tl ix)))) Linear)).
  { split; cbn [pt px shp]; [intro H; rewrite H in L; discriminate|rewrite L; eauto]. }
  split; [exact WQ|]. split; [reflexivity|]. split; [reflexivity|]. split; [reflexivity|]. intros kind s r. rewrite C34_constant; auto.
Qed.
(** cumulative sums along the timeline *)
Theorem C42_cumulative p : wf p -> exists q, tcumsum p = Ok q /\ wf q /\ pt q = pt p /\ comp q = comp p /\
  forall i r, (i < List.length (pt p))%nat -> dat (px q) (i :: r) = total (map (fun j => dat (px p) (j :: r)) (seq 0 (S i))).
Proof.
  intros W. unfold tcumsum. rewrite process_from_total by (exists (comp p); apply wf_shape; auto). eexists. split; [reflexivity|].
  split; [split; [apply W|exists (comp p); apply (wf_shape p W)]|]. split; [reflexivity|]. split; [reflexivity|]. intros i r H. cbn [px dat hd tl].
  change (@nzero R _) with 0. change (column p r) with (along p r). rewrite cumsum_nth by (rewrite along_length; auto). rewrite Rplus_0_l. f_equal. unfold along. rewrite firstn_map. f_equal.
  apply nth_ext with (d := 0%nat) (d' := 0%nat); [rewrite firstn_length, !seq_length; lia|]. intros j J. rewrite firstn_length, seq_length in J. rewrite nth_firstn_lt by lia. rewrite !seq_nth by lia. reflexivity.
Qed.
(** what the statistics are *)
Theorem C42_statistics (l : list R) ddof : nsum l = total l /\ nmean l = average l /\ nvar 0 l = central 2 l /\ nstd ddof l = sqrt (nvar ddof l) /\
  nvar ddof l * INR (List.length l - ddof) = (if (List.length l <=? ddof)%nat then 0 else total (map (fun x => (x - average l)^2) l)).
Proof.
  assert (M : nmean l = average l) by (unfold nmean, average; rewrite nsum_R; reflexivity).
  assert (V : forall d, nvar d l = total (map (fun x => (x - average l)^2) l) / INR (List.length l - d)).
  { intro d. unfold nvar. rewrite nsum_R, M. change (ndiv (V := R)) with Rdiv. change (nofnat (V := R)) with INR. unfold total. f_equal. f_equal. apply map_ext. intro x. change (nmul (V := R)) with Rmult. change (nsub (V := R)) with Rminus. ring. }
  split; [apply nsum_R|]. split; [exact M|]. split; [rewrite V, Nat.sub_0_r; unfold central, average at 2; rewrite map_length; reflexivity|]. split; [reflexivity|].
  rewrite V. destruct (Nat.leb_spec (List.length l) ddof) as [H|H].
  - replace (List.length l - ddof)%nat with 0%nat by lia. simpl INR. unfold Rdiv. ring.
  - field. apply not_0_INR. lia.
Qed.
Lemma nminl_in l : forall d, nminl (V := R) l d = d \/ In (nminl l d) l.
Proof.
  induction l as [|y l IH]; intro d; [left; reflexivity|]. change (nminl (y :: l) d) with (nminl l (if nlt y d then y else d)). destruct (IH (if nlt y d then y else d)) as [H|H]; [|right; right; auto].
  rewrite H. destruct (nlt y d); [right; left; auto|left; auto].
Qed.
Lemma nmaxl_in l : forall d, nmaxl (V := R) l d = d \/ In (nmaxl l d) l.
Proof.
  induction l as [|y l IH]; intro d; [left; reflexivity|]. change (nmaxl (y :: l) d) with (nmaxl l (if nlt d y then y else d)). destruct (IH (if nlt d y then y else d)) as [H|H]; [|right; right; auto].
  rewrite H. destruct (nlt d y); [right; left; auto|left; auto].
Qed.
Theorem C42_extremes (l : list R) : l <> [] -> In (lmin l) l /\ In (lmax l) l /\ forall x, In x l -> lmin l <= x <= lmax l.
Proof.
  intro N. destruct l as [|d l]; [contradiction|]. unfold lmin, lmax. split; [|split].
  - destruct (nminl_in l d); [left; auto|right; auto].
  - destruct (nmaxl_in l d); [left; auto|right; auto].
  - intros x X. destruct (nminl_le l d) as [A1 A2], (nmaxl_ge l d) as [B1 B2]. destruct X as [<-|X]; auto.
Qed.
(** each path is between the minimum and maximum across paths; each value between those along the timeline *)
Theorem C42_between_paths p v k lo hi i r j : wf p -> comp p = v ++ [k] -> psummary true lmin p = Ok lo -> psummary true lmax p = Ok hi -> (j < k)%nat ->
  dat (px lo) (i :: r ++ [0%nat]) <= dat (px p) (i :: r ++ [j]) <= dat (px hi) (i :: r ++ [0%nat]).
Proof.
  intros W E L H J. destruct (C42_paths true lmin p v k W E ltac:(lia)) as (q & Q1 & _ & _ & _ & Q). rewrite L in Q1. injection Q1 as <-.
  destruct (C42_paths true lmax p v k W E ltac:(lia)) as (q & Q1 & _ & _ & _ & Q'). rewrite H in Q1. injection Q1 as <-. rewrite Q, Q'.
  assert (IN : In (dat (px p) (i :: r ++ [j])) (sample p None [i] r)). { unfold sample. apply in_map_iff. exists j. split; auto. apply in_seq. rewrite (comp_paths p v k W E). lia. }
  apply C42_extremes; auto. intro N. rewrite N in IN. contradiction.
Qed.
Theorem C42_between_times p lo hi i r : wf p -> tsummary lmin p = Ok lo -> tsummary lmax p = Ok hi -> (i < List.length (pt p))%nat ->
  dat (px lo) (0%nat :: r) <= dat (px p) (i :: r) <= dat (px hi) (0%nat :: r).
Proof.
  intros W L H I. destruct (C42_time lmin p W) as (q & Q1 & _ & _ & _ & Q & _). rewrite L in Q1. injection Q1 as <-.
  destruct (C42_time lmax p W) as (q & Q1 & _ & _ & _ & Q' & _). rewrite H in Q1. injection Q1 as <-. rewrite Q, Q'.
  assert (IN : In (dat (px p) (i :: r)) (along p r)) by (rewrite <- along_nth by auto; apply nth_In; rewrite along_length; auto).
  apply C42_extremes; auto. intro N. rewrite N in IN. contradiction.
Qed.
Example C42_ex : sample zp2r None [0%nat] [] = [1; 3; 2] /\ total (sample zp2r None [0%nat] []) = 6 /\ average (sample zp2r None [0%nat] []) = 2 /\ central 2 (sample zp2r None [0%nat] []) = 2/3.
Proof. assert (S : sample zp2r None [0%nat] [] = [1; 3; 2]) by reflexivity. rewrite S. unfold central, average, total. simpl. repeat split; field. Qed.
Print Assumptions C42_paths.
Print Assumptions C42_no_paths.
Print Assumptions C42_values.
Print Assumptions C42_time.
Print Assumptions C42_cumulative.
Print Assumptions C42_statistics.
Print Assumptions C42_extremes.
Print Assumptions C42_between_paths.
Print Assumptions C42_between_times.
