(** Lemmas on the montecarlo class: histograms. *)
From Coq Require Import String List Arith Bool Lia ZArith Reals Lra.
From Verif Require Import Base BaseNum BaseArr BaseNd M_mc S_mc L_nd L_mc.
Import ListNotations.
Local Open Scope R_scope.

Lemma nle_R x y : nle (V := R) x y = true <-> x <= y.
Proof. unfold nle. simpl. destruct (Rlt_dec y x); simpl; split; intro; auto; try discriminate; lra. Qed.
Lemma sorted_cons x y (l : list R) : sorted_edges (x :: y :: l) = nle x y && sorted_edges (y :: l).
Proof. reflexivity. Qed.
Lemma sorted_nth (l : list R) : sorted_edges l = true <-> forall i, (S i < List.length l)%nat -> nth i l 0 <= nth (S i) l 0.
Proof.
  induction l as [|x l IH]; [simpl; split; auto; intros; lia|]. destruct l as [|y l]; [simpl; split; auto; intros; lia|].
  rewrite sorted_cons, andb_true_iff, IH, nle_R. split.
  - intros [H1 H2] [|i] Hi; [exact H1|]. apply (H2 i). simpl in *. lia.
  - intro H. split; [apply (H 0%nat); simpl; lia|]. intros i Hi. apply (H (S i)). simpl in *. lia.
Qed.
Lemma sorted_nondecreasing l : sorted_edges (V := R) l = true <-> nondecreasing l.
Proof.
  rewrite sorted_nth. split.
  - intros H i j Hij Hj. induction Hij as [|j Hij IH]; [lra|]. eapply Rle_trans; [apply IH; lia|]. apply H. lia.
  - intros H i Hi. apply H; lia.
Qed.

Lemma count_app f l1 l2 : count f (l1 ++ l2) = (count f l1 + count f l2)%Z.
Proof. unfold count. rewrite filter_app, app_length. lia. Qed.
Lemma count_cons f x l : count f (x :: l) = ((if f x then 1 else 0) + count f l)%Z.
Proof. unfold count. simpl. destruct (f x); [cbn [List.length]|]; lia. Qed.
Lemma count_nil f : count f [] = 0%Z.
Proof. reflexivity. Qed.
Lemma below_cons x l e : below (V := R) (x :: l) e = ((if Rlt_dec x e then 1 else 0) + below l e)%Z.
Proof. unfold below. simpl. destruct (Rlt_dec x e); [cbn [List.length]|]; lia. Qed.
Lemma upto_cons x l e : upto (V := R) (x :: l) e = ((if Rle_dec x e then 1 else 0) + upto l e)%Z.
Proof.
  unfold upto. cbn [filter]. destruct (nle x e) eqn:E.
  - apply nle_R in E. destruct (Rle_dec x e); [cbn [List.length]; lia|contradiction].
  - destruct (Rle_dec x e) as [L|L]; [apply nle_R in L; congruence|lia].
Qed.
Lemma bin_middle e j l : nondecreasing e -> (S (S j) < List.length e)%nat ->
  (below l (nth (S j) e 0%R) - below l (nth j e 0%R))%Z = count (in_bin e j) l.
Proof.
  intros N J. assert (E : nth j e 0 <= nth (S j) e 0) by (apply N; lia).
  assert (F : Nat.eqb (S (S j)) (List.length e) = false) by (apply Nat.eqb_neq; lia).
  induction l as [|x l IH]; [reflexivity|]. rewrite !below_cons, count_cons, <- IH. unfold in_bin. rewrite F.
  destruct (Rlt_dec x (nth (S j) e 0)), (Rlt_dec x (nth j e 0)), (Rle_dec (nth j e 0) x); cbn [andb orb]; try (exfalso; lra); lia.
Qed.
Lemma bin_last e j l : nondecreasing e -> S (S j) = List.length e ->
  (upto l (nth (S j) e 0%R) - below l (nth j e 0%R))%Z = count (in_bin e j) l.
Proof.
  intros N J. assert (E : nth j e 0 <= nth (S j) e 0) by (apply N; lia).
  assert (F : Nat.eqb (S (S j)) (List.length e) = true) by (apply Nat.eqb_eq; lia).
  induction l as [|x l IH]; [reflexivity|]. rewrite upto_cons, below_cons, count_cons, <- IH. unfold in_bin. rewrite F.
  destruct (Rle_dec x (nth (S j) e 0)), (Rlt_dec x (nth j e 0)), (Rle_dec (nth j e 0) x), (Rlt_dec x (nth (S j) e 0)), (Req_EM_T x (nth (S j) e 0)); cbn [andb orb]; try (exfalso; lra); lia.
Qed.
Lemma cum_length l (e : list R) : List.length (cum_counts l e) = List.length e.
Proof. induction e as [|x e IH]; auto. destruct e; auto. simpl in *. rewrite IH. auto. Qed.
Lemma cum_nth l (e : list R) : forall j, (j < List.length e)%nat ->
  nth j (cum_counts l e) 0%Z = if Nat.eqb (S j) (List.length e) then upto l (nth j e 0) else below l (nth j e 0).
Proof.
  induction e as [|x e IH]; intros j Hj; [simpl in Hj; lia|]. destruct e as [|y e].
  - simpl in Hj. assert (j = 0%nat) as -> by lia. reflexivity.
  - destruct j as [|j]; [reflexivity|]. change (cum_counts l (x :: y :: e)) with (below l x :: cum_counts l (y :: e)).
    cbn [nth]. rewrite IH by (simpl in *; lia). reflexivity.
Qed.
Lemma zdiff_length l : List.length (zdiff l) = (List.length l - 1)%nat.
Proof. induction l as [|x l IH]; auto. destruct l as [|y l]; auto. change (zdiff (x :: y :: l)) with ((y - x)%Z :: zdiff (y :: l)). cbn [List.length]. rewrite IH. simpl. lia. Qed.
Lemma zdiff_nth l : forall j, (S j < List.length l)%nat -> nth j (zdiff l) 0%Z = (nth (S j) l 0 - nth j l 0)%Z.
Proof.
  induction l as [|x l IH]; intros j Hj; [simpl in Hj; lia|]. destruct l as [|y l]; [simpl in Hj; lia|].
  change (zdiff (x :: y :: l)) with ((y - x)%Z :: zdiff (y :: l)). destruct j as [|j]; [reflexivity|]. cbn [nth]. rewrite IH by (simpl in *; lia). reflexivity.
Qed.
Lemma hist_counts l e : nondecreasing e -> zdiff (cum_counts (V := R) l e) = bin_counts e l.
Proof.
  intro N. apply nth_ext with (d := 0%Z) (d' := 0%Z).
  - rewrite zdiff_length, cum_length. unfold bin_counts. rewrite map_length, seq_length. reflexivity.
  - intros j Hj. rewrite zdiff_length, cum_length in Hj. rewrite zdiff_nth by (rewrite cum_length; lia). rewrite !cum_nth by lia.
    unfold bin_counts. rewrite nth_indep with (d' := count (in_bin e 0) l) by (rewrite map_length, seq_length; lia).
    rewrite map_nth with (f := fun j => count (in_bin e j) l), seq_nth by lia. simpl Nat.add.
    replace (Nat.eqb (S j) (List.length e)) with false by (symmetry; apply Nat.eqb_neq; lia).
    destruct (Nat.eqb_spec (S (S j)) (List.length e)); [apply bin_last; auto|apply bin_middle; auto; lia].
Qed.

(** every value is in one bin, or outside *)
Lemma one_bin e x : nondecreasing e -> (zsum (map (fun j => if in_bin e j x then 1 else 0)%Z (seq 0 (List.length e - 1))) + (if outside e x then 1 else 0))%Z = 1%Z.
Proof.
  intro N. unfold outside.
  assert (U : forall i j, (i < j)%nat -> (S j < List.length e)%nat -> in_bin e i x = true -> in_bin e j x = true -> False).
  { intros i j Hij Hj A B. unfold in_bin in *. apply andb_true_iff in A, B. destruct A as [_ A], B as [B _].
    destruct (Rle_dec (nth j e 0) x); [|discriminate]. assert (nth (S i) e 0 <= nth j e 0) by (apply N; lia).
    apply orb_true_iff in A. destruct A as [A|A]; [destruct (Rlt_dec x (nth (S i) e 0)); [lra|discriminate]|].
    apply andb_true_iff in A. destruct A as [A _]. apply Nat.eqb_eq in A. lia. }
  assert (G : forall n s, (s + n <= List.length e - 1)%nat ->
     (zsum (map (fun j => if in_bin e j x then 1 else 0)%Z (seq s n)) = if existsb (fun j => in_bin e j x) (seq s n) then 1 else 0)%Z).
  { induction n as [|n IH]; intros s Hs; [reflexivity|]. cbn [seq map existsb zsum fold_right]. fold (zsum (map (fun j => if in_bin e j x then 1 else 0)%Z (seq (S s) n))).
    rewrite IH by lia. destruct (in_bin e s x) eqn:E; simpl; [|reflexivity].
    destruct (existsb (fun j => in_bin e j x) (seq (S s) n)) eqn:X; [|reflexivity]. exfalso.
    apply existsb_exists in X. destruct X as (j & Hj & B). apply in_seq in Hj. apply (U s j); auto; lia. }
  rewrite G by lia. destruct (existsb _ _); reflexivity.
Qed.
Lemma zsum_add (f g : nat -> Z) l : zsum (map (fun j => f j + g j)%Z l) = (zsum (map f l) + zsum (map g l))%Z.
Proof. induction l; simpl; auto. rewrite IHl. lia. Qed.
Lemma bins_conserve e l : nondecreasing e -> (zsum (bin_counts e l) + count (outside e) l)%Z = Z.of_nat (List.length l).
Proof.
  intro N. unfold bin_counts. induction l as [|x l IH].
  - rewrite count_nil. induction (seq 0 (List.length e - 1)); simpl in *; auto.
  - rewrite (map_ext _ (fun j => (if in_bin e j x then 1 else 0) + count (in_bin e j) l)%Z) by (intro; apply count_cons).
    rewrite zsum_add, count_cons. pose proof (one_bin e x N). cbn [List.length]. lia.
Qed.
Lemma bin_counts_app e l1 l2 : map (fun p => fst p + snd p)%Z (combine (bin_counts e l1) (bin_counts e l2)) = bin_counts e (l1 ++ l2).
Proof.
  unfold bin_counts. induction (seq 0 (List.length e - 1)); simpl; auto. rewrite IHl, count_app. reflexivity.
Qed.
(** values between the first and the last edge are in a bin *)
Lemma inside e x : nondecreasing e -> (2 <= List.length e)%nat -> nth 0 e 0 <= x -> x <= last e 0 -> outside e x = false.
Proof.
  intros N L A B. unfold outside. apply negb_false_iff. apply existsb_exists.
  assert (LE : last e 0 = nth (List.length e - 1) e 0).
  { clear. induction e as [|y e IH]; auto. destruct e as [|z e]; auto. change (last (y :: z :: e) 0) with (last (z :: e) 0). rewrite IH. simpl. rewrite Nat.sub_0_r. reflexivity. }
  assert (G : forall k, (S k < List.length e)%nat -> nth k e 0 <= x -> exists j, (k <= j)%nat /\ (S j < List.length e)%nat /\ in_bin e j x = true).
  { intros k Hk. remember (List.length e - 2 - k)%nat as d eqn:Ed. revert k Hk Ed. induction d as [|d IH]; intros k Hk Ed Hx.
    - exists k. split; [lia|]. split; [lia|]. unfold in_bin. destruct (Rle_dec (nth k e 0) x); [|contradiction]. cbn [andb].
      replace (Nat.eqb (S (S k)) (List.length e)) with true by (symmetry; apply Nat.eqb_eq; lia). rewrite LE in B. replace (List.length e - 1)%nat with (S k) in B by lia.
      destruct (Rlt_dec x (nth (S k) e 0)); [reflexivity|]. destruct (Req_EM_T x (nth (S k) e 0)); [reflexivity|lra].
    - destruct (Rlt_dec x (nth (S k) e 0)) as [Hlt|Hge].
      + exists k. split; [lia|]. split; [lia|]. unfold in_bin. destruct (Rle_dec (nth k e 0) x); [|contradiction]. destruct (Rlt_dec x (nth (S k) e 0)); [reflexivity|contradiction].
      + destruct (IH (S k)) as (j & J1 & J2 & J3); [lia|lia|lra|]. exists j. split; [lia|]. auto. }
  destruct (G 0%nat) as (j & _ & J & E); [lia|auto|]. exists j. split; auto. apply in_seq. lia.
Qed.

(** *** np.histogram *)
Lemma hist_edges_ok l e c e' : hist_edges (V := R) l e = Ok (c, e') -> e' = e /\ nondecreasing e /\ c = bin_counts e l.
Proof.
  unfold hist_edges. destruct (sorted_edges e) eqn:S; [|discriminate]. intro H. injection H as <- <-. apply sorted_nondecreasing in S.
  repeat split; auto. apply hist_counts; auto.
Qed.
Lemma hist_edges_run l e : nondecreasing e -> hist_edges (V := R) l e = Ok (bin_counts e l, e).
Proof. intro N. unfold hist_edges. pose proof N as S. apply sorted_nondecreasing in S. rewrite S, hist_counts; auto. Qed.

Section Hist.
Variable auto : string -> list R -> option (R * R) -> res nat.
Lemma np_histogram_ok l b r c e : np_histogram auto l b r = Ok (c, e) -> nondecreasing e /\ c = bin_counts e l.
Proof.
  assert (HI : forall n, hist_int l n r = Ok (c, e) -> nondecreasing e /\ c = bin_counts e l).
  { intros n. unfold hist_int. destruct (Nat.eqb n 0); [discriminate|]. unfold rbind. destruct (outer_edges l r) as [[x y]|]; [|discriminate].
    intro H. apply hist_edges_ok in H. destruct H as (<- & H). auto. }
  destruct b as [n|s|ed|]; simpl; [apply HI| | |discriminate].
  - unfold rbind. destruct (auto s l r); [apply HI|discriminate].
  - intro H. apply hist_edges_ok in H. destruct H as (<- & H). auto.
Qed.

Lemma nminl_le l : forall d, nminl (V := R) l d <= d /\ forall x, In x l -> nminl l d <= x.
Proof.
  induction l as [|y l IH]; intro d; [unfold nminl; simpl; split; [lra|tauto]|].
  change (nminl (y :: l) d) with (nminl l (if (if Rlt_dec y d then true else false) then y else d)).
  destruct (IH (if (if Rlt_dec y d then true else false) then y else d)) as [A B].
  destruct (Rlt_dec y d); cbv iota in *; (split; [lra|intros x [->|Hx]; [lra|auto]]).
Qed.
Lemma nmaxl_ge l : forall d, d <= nmaxl (V := R) l d /\ forall x, In x l -> x <= nmaxl l d.
Proof.
  induction l as [|y l IH]; intro d; [unfold nmaxl; simpl; split; [lra|tauto]|].
  change (nmaxl (y :: l) d) with (nmaxl l (if (if Rlt_dec d y then true else false) then y else d)).
  destruct (IH (if (if Rlt_dec d y then true else false) then y else d)) as [A B].
  destruct (Rlt_dec d y); cbv iota in *; (split; [lra|intros x [->|Hx]; [lra|auto]]).
Qed.
Lemma outer_ok l r : (forall a b, r = Some (a, b) -> a <= b) ->
  exists a b, outer_edges (V := R) l r = Ok (a, b) /\ a < b /\ (r = None -> forall x, In x l -> a <= x <= b) /\
   (forall r0 r1, r = Some (r0, r1) -> r0 < r1 -> a = r0 /\ b = r1).
Proof.
  intro HR. unfold outer_edges, half. destruct r as [[r0 r1]|].
  - specialize (HR r0 r1 eq_refl). simpl. destruct (Rlt_dec r1 r0); [lra|]. simpl. destruct (Rlt_dec r0 r1).
    + exists r0, r1. split; [reflexivity|]. split; [auto|]. split; [discriminate|]. intros a b E. injection E as <- <-. auto.
    + eexists _, _. split; [reflexivity|]. split; [lra|]. split; [discriminate|]. intros a b E. injection E as <- <-. lra.
  - destruct l as [|x l]; simpl.
    + destruct (Rlt_dec 0 1); [|lra]. exists 0, 1. split; [reflexivity|]. split; [lra|]. split; [tauto|discriminate].
    + destruct (nminl_le l x) as [A1 A2], (nmaxl_ge l x) as [B1 B2]. destruct (Rlt_dec (nminl l x) (nmaxl l x)).
      * eexists _, _. split; [reflexivity|]. split; [auto|]. split; [|discriminate]. intros _ y [<-|Hy]; [lra|]. specialize (A2 y Hy). specialize (B2 y Hy). lra.
      * eexists _, _. split; [reflexivity|]. split; [lra|]. split; [|discriminate]. intros _ y [<-|Hy]; [lra|]. specialize (A2 y Hy). specialize (B2 y Hy). lra.
Qed.
Lemma linspace_nth a b n j : (0 < n)%nat -> (j <= n)%nat -> nth j (linspace (V := R) a b n) 0 = a + INR j * ((b - a)/INR n).
Proof.
  intros N J. unfold linspace. set (f := fun i : nat => _). rewrite nth_indep with (d' := f 0%nat) by (rewrite map_length, seq_length; lia).
  rewrite map_nth, seq_nth by lia. unfold f. simpl Nat.add. simpl nsub. destruct (Nat.eqb_spec j n) as [->|]; [|reflexivity].
  assert (0 < INR n) by (apply lt_0_INR; auto). field. lra.
Qed.
Lemma linspace_length a b n : List.length (linspace (V := R) a b n) = S n.
Proof. unfold linspace. rewrite map_length, seq_length. reflexivity. Qed.
Lemma linspace_mono a b n : (0 < n)%nat -> a < b -> nondecreasing (linspace a b n).
Proof.
  intros N AB i j IJ J. rewrite linspace_length in J. rewrite !linspace_nth by lia. apply le_INR in IJ. assert (0 < INR n) by (apply lt_0_INR; auto).
  assert (0 < (b - a)/INR n) by (apply Rdiv_lt_0_compat; lra). nra.
Qed.
Lemma linspace_last a b n : last (linspace (V := R) a b n) 0 = b.
Proof. unfold linspace. rewrite seq_S, map_app. cbn [map]. rewrite last_snoc. simpl Nat.add. rewrite Nat.eqb_refl. reflexivity. Qed.
Lemma hist_int_ok l n r : (0 < n)%nat -> (forall a b, r = Some (a, b) -> a <= b) ->
  exists a b, a < b /\ hist_int (V := R) l n r = Ok (bin_counts (linspace a b n) l, linspace a b n) /\
    (r = None -> count (outside (linspace a b n)) l = 0%Z) /\
    (forall r0 r1, r = Some (r0, r1) -> r0 < r1 -> a = r0 /\ b = r1).
Proof.
  intros N HR. destruct (outer_ok l r HR) as (a & b & E & AB & IN & RG). exists a, b. split; auto. unfold hist_int.
  destruct (Nat.eqb_spec n 0); [lia|]. rewrite E. cbv beta iota delta [rbind]. split; [apply hist_edges_run, linspace_mono; auto|]. split; [|auto].
  intro RN. specialize (IN RN). assert (G : forall l', (forall x, In x l' -> a <= x <= b) -> count (outside (linspace a b n)) l' = 0%Z); [|apply G; auto].
  induction l' as [|x l' IH]; intro H; [reflexivity|]. rewrite count_cons, IH by (intros; apply H; simpl; auto).
  destruct (H x) as [H1 H2]; [simpl; auto|]. rewrite inside; auto.
  - apply linspace_mono; auto.
  - rewrite linspace_length. lia.
  - rewrite linspace_nth by lia. simpl. lra.
  - rewrite linspace_last. auto.
Qed.

(** *** the loops *)
Lemma ravel_row (y : arr R) v M ix : shp y = (v ++ [M])%list -> inb v ix -> exists z, sub_arr y ix = Ok z /\ ravel z = row y ix.
Proof.
  intros S H. rewrite (sub_arr_prefix y v [M] ix S H). eexists. split; [reflexivity|]. unfold ravel. cbn [shp dat]. rewrite ndindex_1, map_map.
  unfold row. rewrite S, last_snoc. reflexivity.
Qed.
Lemma set_at_same {A} (x : arr A) i y : dat (set_at x i y) i = y.
Proof. unfold set_at. cbn [dat]. destruct (list_eq_dec Nat.eq_dec i i); congruence. Qed.
Lemma set_at_other {A} (x : arr A) i y j : j <> i -> dat (set_at x i y) j = dat x j.
Proof. unfold set_at. cbn [dat]. destruct (list_eq_dec Nat.eq_dec j i); congruence. Qed.

Lemma first_hist_ok v M y r args todo : forall b c o, shp y = (v ++ [M])%list -> (forall ix, In ix todo -> inb v ix) -> NoDup todo ->
  forall b' c' o', first_hist auto 0 M y r args todo b c o = ((b', c', o'), Ok tt) ->
  shp b' = shp b /\ shp c' = shp c /\ shp o' = shp o /\
  (forall ix, In ix todo -> exists e, dat b' ix = Some e /\ nondecreasing e /\ np_histogram auto (row y ix) (args ix) r = Ok (bin_counts e (row y ix), e) /\
      dat c' ix = Some (bin_counts e (row y ix)) /\ dat o' ix = count (outside e) (row y ix)) /\
  (forall ix, ~ In ix todo -> dat b' ix = dat b ix /\ dat c' ix = dat c ix /\ dat o' ix = dat o ix).
Proof.
  induction todo as [|i todo IH]; intros b c o S HI ND b' c' o' H; cbn [first_hist] in H.
  - injection H as <- <- <-. do 3 (split; [reflexivity|]). split; [intros ix []|auto].
  - inversion ND as [|? ? NI ND']; subst. destruct (ravel_row y v M i S) as (z & EZ & RZ); [apply HI; simpl; auto|].
    rewrite EZ in H. cbv beta iota delta [rbind] in H. rewrite RZ in H. destruct (np_histogram auto (row y i) (args i) r) as [[counts edges]|] eqn:EH; [|discriminate].
    pose proof (np_histogram_ok _ _ _ _ _ EH) as [NE ->].
    apply IH in H; auto; [|intros; apply HI; simpl; auto]. destruct H as (S1 & S2 & S3 & HT & HO). simpl in S1, S2, S3.
    split; [auto|]. split; [auto|]. split; [auto|]. split.
    + intros ix [<-|Hix]; [|apply HT; auto]. destruct (HO i NI) as (E1 & E2 & E3). rewrite !set_at_same in *. exists edges. split; [auto|]. split; [auto|]. split; [auto|]. split; [auto|].
      rewrite E3. pose proof (bins_conserve edges (row y i) NE) as BC. rewrite row_length, S, last_snoc in BC. lia.
    + intros ix Hix. destruct (HO ix) as (E1 & E2 & E3); [intro; apply Hix; simpl; auto|]. assert (ix <> i) by (intro; apply Hix; simpl; auto).
      rewrite !set_at_other in * by auto. auto.
Qed.
Lemma first_hist_run v M y r args todo : forall b c o, shp y = (v ++ [M])%list -> (forall ix, In ix todo -> inb v ix) ->
  (forall ix, In ix todo -> exists c e, np_histogram auto (row y ix) (args ix) r = Ok (c, e)) ->
  exists x, first_hist auto 0 M y r args todo b c o = (x, Ok tt).
Proof.
  induction todo as [|i todo IH]; intros b c o S HI HO; cbn [first_hist]; [eauto|].
  destruct (ravel_row y v M i S) as (z & EZ & RZ); [apply HI; simpl; auto|]. rewrite EZ. cbv beta iota delta [rbind]. rewrite RZ.
  destruct (HO i) as (c1 & e1 & E); [simpl; auto|]. rewrite E. apply IH; auto; intros; [apply HI|apply HO]; simpl; auto.
Qed.
Lemma next_hist_ok v M y b D E todo : forall c o, shp y = (v ++ [M])%list -> (forall ix, In ix todo -> inb v ix) -> NoDup todo ->
  (forall ix, In ix todo -> dat b ix = Some (E ix) /\ nondecreasing (E ix) /\ dat c ix = Some (bin_counts (E ix) (D ix)) /\ dat o ix = count (outside (E ix)) (D ix)) ->
  exists c' o', next_hist auto M y b todo c o = ((c', o'), Ok tt) /\ shp c' = shp c /\ shp o' = shp o /\
   (forall ix, In ix todo -> dat c' ix = Some (bin_counts (E ix) (D ix ++ row y ix)) /\ dat o' ix = count (outside (E ix)) (D ix ++ row y ix)) /\
   (forall ix, ~ In ix todo -> dat c' ix = dat c ix /\ dat o' ix = dat o ix).
Proof.
  induction todo as [|i todo IH]; intros c o S HI ND H; cbn [next_hist].
  - exists c, o. do 3 (split; [reflexivity|]). split; [intros ix []|auto].
  - inversion ND as [|? ? NI ND']; subst. destruct (ravel_row y v M i S) as (z & EZ & RZ); [apply HI; simpl; auto|].
    rewrite EZ. cbv beta iota delta [rbind]. rewrite RZ. destruct (H i) as (E1 & NE & E2 & E3); [simpl; auto|]. rewrite E1. cbn [np_histogram].
    rewrite hist_edges_run by auto. rewrite E2, bin_counts_app.
    destruct (IH (set_at c i (Some (bin_counts (E i) (D i ++ row y i)))) (set_at o i (dat o i + (Z.of_nat M - zsum (bin_counts (E i) (row y i))))%Z)) as (c' & o' & ER & S1 & S2 & HT & HO); auto.
    { intros; apply HI; simpl; auto. }
    { intros ix Hix. assert (ix <> i) by (intros ->; contradiction). rewrite !set_at_other by auto. apply H; simpl; auto. }
    rewrite ER. exists c', o'. split; [reflexivity|]. simpl in S1, S2. split; [auto|]. split; [auto|]. split.
    + intros ix [<-|Hix]; [|apply HT; auto]. destruct (HO i NI) as (F1 & F2). rewrite set_at_same in F1. rewrite set_at_same in F2. split; [auto|].
      rewrite F2, E3, count_app. pose proof (bins_conserve (E i) (row y i) NE) as BC. rewrite row_length, S, last_snoc in BC. lia.
    + intros ix Hix. destruct (HO ix) as (F1 & F2); [intro; apply Hix; simpl; auto|]. assert (ix <> i) by (intro; apply Hix; simpl; auto).
      rewrite set_at_other in F1 by auto. rewrite set_at_other in F2 by auto. auto.
Qed.

Definition hist_inv (v : list nat) (D E : list nat -> list R) (a : mc R) : Prop :=
  exists b c o, mc_bins a = BObj b /\ mc_counts a = Some c /\ mc_outside a = Some o /\ shp b = v /\ shp c = v /\ shp o = v /\
   forall ix, inb v ix -> dat b ix = Some (E ix) /\ nondecreasing (E ix) /\ dat c ix = Some (bin_counts (E ix) (D ix)) /\ dat o ix = count (outside (E ix)) (D ix).
Lemma check_ok v N M D E c o : (forall ix, inb v ix -> List.length (D ix) = (N + M)%nat /\ nondecreasing (E ix) /\ dat c ix = Some (bin_counts (E ix) (D ix)) /\ dat o ix = count (outside (E ix)) (D ix)) ->
  hist_check N M v c o = Ok tt.
Proof.
  intro H. unfold hist_check. match goal with |- (if ?x then _ else _) = _ => assert (X : x = true); [|rewrite X; auto] end.
  apply forallb_forall. intros ix Hix. apply in_ndindex in Hix. destruct (H ix Hix) as (L & NE & -> & ->). apply Z.eqb_eq. rewrite bins_conserve, L by auto. reflexivity.
Qed.
Lemma moments_head v N D a : moments_inv v N D a -> exists m0 t, mc_moments a = Some (m0 :: t) /\ shp m0 = v.
Proof. intros (c & mean & m1 & m2 & m3 & m4 & _ & _ & E & _ & _ & S & _). eauto. Qed.

Lemma next_histogram v N0 N M D D' E a y : shp y = (v ++ [M])%list -> (forall ix, inb v ix -> row y ix = D' ix) ->
  (forall ix, inb v ix -> List.length (D ix) = N) -> (exists D0, moments_inv v N0 D0 a) -> hist_inv v D E a ->
  exists a', mc_update_histogram auto false N y a = (a', Ok tt) /\ hist_inv v (fun ix => D ix ++ D' ix)%list E a' /\
    mc_use a' = mc_use a /\ mc_mean a' = mc_mean a /\ mc_moments a' = mc_moments a /\ mc_center a' = mc_center a.
Proof.
  intros SY HR HL [D0 HM] (b & c & o & EB & EC & EO & SB & SC & SO & H). destruct (moments_head _ _ _ _ HM) as (m0 & tl & EM & S0).
  unfold mc_update_histogram. rewrite EB, EM, EC, EO, S0, SY, last_snoc.
  destruct (next_hist_ok v M y b D E (ndindex v) c o SY) as (c' & o' & ER & S1 & S2 & HT & _).
  { intros ix Hix. apply in_ndindex; auto. } { apply NoDup_ndindex. } { intros ix Hix. apply H, in_ndindex; auto. }
  rewrite ER.
  assert (G : forall ix, inb v ix -> dat c' ix = Some (bin_counts (E ix) (D ix ++ D' ix)) /\ dat o' ix = count (outside (E ix)) (D ix ++ D' ix)).
  { intros ix Hix. rewrite <- HR by auto. apply HT. apply in_ndindex; auto. }
  rewrite (check_ok v N M (fun ix => D ix ++ D' ix)%list E).
  - eexists. split; [reflexivity|]. split; [|repeat split; auto]. exists b, c', o'. cbn [set_hist mc_bins mc_counts mc_outside].
    do 3 (split; [reflexivity|]). split; [auto|]. split; [congruence|]. split; [congruence|]. intros ix Hix. destruct (H ix Hix) as (H1 & H2 & _). destruct (G ix Hix). auto.
  - intros ix Hix. destruct (H ix Hix) as (_ & H2 & _). destruct (G ix Hix). split; [|auto]. rewrite app_length, HL, <- HR, row_length, SY, last_snoc by auto. reflexivity.
Qed.

(** bins used on the first sample: arguments of np.histogram *)
Definition first_args (a : mc R) (v : list nat) (args : list nat -> hbins (V := R)) (r : option (R * R)) : Prop :=
  match mc_bins a with
  | BNone => False
  | BInt n => r = mc_range a /\ forall ix, args ix = HInt n
  | BStr s => r = mc_range a /\ forall ix, args ix = HStr s
  | BArr m => r = None /\ (exists k, shp m = (v ++ [k])%list) /\ forall ix, args ix = HEdges (row m ix)
  | BObj m => r = None /\ shp m = v /\ forall ix, args ix = match dat m ix with Some e => HEdges e | None => HObj end
  end.
Lemma first_hist_ext v M y r args args' todo : (forall ix, args ix = args' ix) -> forall b c o,
  first_hist auto v M y r args todo b c o = first_hist auto v M y r args' todo b c o.
Proof. intros HE. induction todo as [|i todo IH]; intros b c o; simpl; auto. rewrite HE. destruct (rbind _ _) as [[? ?]|]; auto. Qed.
Lemma shape_eqb_refl s : shape_eqb s s = true.
Proof. unfold shape_eqb. destruct (list_eq_dec Nat.eq_dec s s); auto; contradiction. Qed.

(** the histogram of a first sample is a run of the loop, followed by the check *)
Lemma first_histogram_run v N0 M a y args r : shp y = (v ++ [M])%list -> (exists D0, moments_inv v N0 D0 a) -> first_args a v args r ->
  exists b0 c0 o0, shp b0 = v /\ shp c0 = v /\ shp o0 = v /\
  mc_update_histogram auto true 0 y a = match first_hist auto 0 M y r args (ndindex v) b0 c0 o0 with
    ((b, c, o), r) => (set_hist a (BObj b) c o, match r with Ok _ => hist_check 0 M v c o | Err e => Err e end) end.
Proof.
  intros SY [D0 HM] FA. destruct (moments_head _ _ _ _ HM) as (m0 & tl & EM & S0). unfold mc_update_histogram, first_args in *.
  rewrite EM, S0, SY, last_snoc. destruct (mc_bins a) as [|n|s|m|m].
  - contradiction.
  - destruct FA as [-> HE]. exists (mkArr v (fun _ => None)), (mkArr v (fun _ => None)), (mkArr v (fun _ => 0%Z)). do 3 (split; [reflexivity|]).
    rewrite (first_hist_ext 0 M y (mc_range a) args (fun _ => HInt n)) by auto. reflexivity.
  - destruct FA as [-> HE]. exists (mkArr v (fun _ => None)), (mkArr v (fun _ => None)), (mkArr v (fun _ => 0%Z)). do 3 (split; [reflexivity|]).
    rewrite (first_hist_ext 0 M y (mc_range a) args (fun _ => HStr s)) by auto. reflexivity.
  - destruct FA as (-> & [k SM] & HE). rewrite SM, removelast_snoc, shape_eqb_refl. replace (Nat.eqb (List.length (v ++ [k])) 0) with false by (symmetry; apply Nat.eqb_neq; rewrite app_length; simpl; lia).
    cbn [negb andb]. exists (mkArr v (fun i => Some (row m i))), (mkArr v (fun _ => None)), (mkArr v (fun _ => 0%Z)). do 3 (split; [reflexivity|]).
    rewrite (first_hist_ext 0 M y None args (fun i => HEdges (row m i))) by auto. reflexivity.
  - destruct FA as (-> & SM & HE). rewrite SM, shape_eqb_refl. exists m, (mkArr v (fun _ => None)), (mkArr v (fun _ => 0%Z)). split; [auto|]. do 2 (split; [reflexivity|]).
    rewrite (first_hist_ext 0 M y None args (fun i => match dat m i with Some e => HEdges e | None => HObj end)) by auto. reflexivity.
Qed.
Lemma first_histogram v N0 M D' a y args r : shp y = (v ++ [M])%list -> (forall ix, inb v ix -> row y ix = D' ix) ->
  (exists D0, moments_inv v N0 D0 a) -> first_args a v args r ->
  (forall ix, inb v ix -> exists c e, np_histogram auto (D' ix) (args ix) r = Ok (c, e)) ->
  exists a' E, mc_update_histogram auto true 0 y a = (a', Ok tt) /\ hist_inv v D' E a' /\
    (forall ix, inb v ix -> np_histogram auto (D' ix) (args ix) r = Ok (bin_counts (E ix) (D' ix), E ix)) /\
    mc_use a' = mc_use a /\ mc_mean a' = mc_mean a /\ mc_moments a' = mc_moments a /\ mc_center a' = mc_center a.
Proof.
  intros SY HR HM FA HO. destruct (first_histogram_run v N0 M a y args r SY HM FA) as (b0 & c0 & o0 & SB & SC & SO & ->).
  destruct (first_hist_run v M y r args (ndindex v) b0 c0 o0 SY) as ([[b c] o] & ER).
  { intros; apply in_ndindex; auto. } { intros ix Hix. apply in_ndindex in Hix. rewrite HR by auto. apply HO; auto. }
  rewrite ER. apply (first_hist_ok v M) in ER; auto; [|intros; apply in_ndindex; auto|apply NoDup_ndindex]. destruct ER as (S1 & S2 & S3 & HT & _).
  set (E := fun ix => match dat b ix with Some e => e | None => [] end).
  assert (G : forall ix, inb v ix -> dat b ix = Some (E ix) /\ nondecreasing (E ix) /\ np_histogram auto (D' ix) (args ix) r = Ok (bin_counts (E ix) (D' ix), E ix) /\
     dat c ix = Some (bin_counts (E ix) (D' ix)) /\ dat o ix = count (outside (E ix)) (D' ix)).
  { intros ix Hix. destruct (HT ix) as (e & E1 & E2 & E3 & E4 & E5); [apply in_ndindex; auto|]. unfold E. rewrite E1, <- HR by auto. auto. }
  rewrite (check_ok v 0 M D' E).
  - eexists _, E. split; [reflexivity|]. split; [|split; [|repeat split; auto]].
    + exists b, c, o. cbn [set_hist mc_bins mc_counts mc_outside]. do 3 (split; [reflexivity|]). split; [congruence|]. split; [congruence|]. split; [congruence|].
      intros ix Hix. destruct (G ix Hix) as (? & ? & ? & ? & ?). auto.
    + intros ix Hix. apply G; auto.
  - intros ix Hix. destruct (G ix Hix) as (? & ? & ? & ? & ?). split; [|auto]. rewrite <- HR, row_length, SY, last_snoc by auto. reflexivity.
Qed.
Lemma first_histogram_inv v N0 M D' a y args r a' : shp y = (v ++ [M])%list -> (forall ix, inb v ix -> row y ix = D' ix) ->
  (exists D0, moments_inv v N0 D0 a) -> first_args a v args r -> mc_update_histogram auto true 0 y a = (a', Ok tt) ->
  forall ix, inb v ix -> exists c e, np_histogram auto (D' ix) (args ix) r = Ok (c, e).
Proof.
  intros SY HR HM FA H ix Hix. destruct (first_histogram_run v N0 M a y args r SY HM FA) as (b0 & c0 & o0 & SB & SC & SO & EQ). rewrite EQ in H.
  destruct (first_hist auto 0 M y r args (ndindex v) b0 c0 o0) as [[[b c] o] [[]|]] eqn:ER; [|discriminate].
  apply (first_hist_ok v M) in ER; auto; [|intros; apply in_ndindex; auto|apply NoDup_ndindex]. destruct ER as (_ & _ & _ & HT & _).
  destruct (HT ix) as (e & _ & _ & E & _); [apply in_ndindex; auto|]. rewrite HR in E by auto. eauto.
Qed.
End Hist.
