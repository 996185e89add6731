(** Lemmas on basic indexing and reshaping. *)
From Coq Require Import List Arith Bool Lia ZArith Sorted.
From Verif Require Import Base BaseNum BaseArr BaseNd BaseIdx M_mc M_process S_mc S_process L_nd.
Import ListNotations.

(** *** slices *)
Lemma sorted_ext {A} (R : A -> A -> Prop) : (forall x, ~ R x x) -> (forall x y, R x y -> R y x -> False) ->
  forall l1 l2, StronglySorted R l1 -> StronglySorted R l2 -> (forall x, In x l1 <-> In x l2) -> l1 = l2.
Proof.
  intros I A1. induction l1 as [|x l1 IH]; intros [|y l2] S1 S2 E; auto.
  - destruct (proj2 (E y)); simpl; auto.
  - destruct (proj1 (E x)); simpl; auto.
  - inversion S1 as [|? ? S1' F1]; subst. inversion S2 as [|? ? S2' F2]; subst. rewrite Forall_forall in F1, F2.
    assert (x = y).
    { destruct (proj1 (E x)) as [|H1]; simpl; auto. destruct (proj2 (E y)) as [|H2]; simpl; auto. exfalso. eauto. }
    subst y. f_equal. apply IH; auto. intro z. split; intro H.
    + destruct (proj1 (E z)) as [<-|]; simpl; auto. exfalso. eapply I; eauto.
    + destruct (proj2 (E z)) as [<-|]; simpl; auto. exfalso. eapply I; eauto.
Qed.
Lemma sorted_filter {A} (R : A -> A -> Prop) f l : StronglySorted R l -> StronglySorted R (filter f l).
Proof.
  induction 1 as [|x l S IH F]; simpl; [constructor|]. destruct (f x); auto. constructor; auto.
  rewrite Forall_forall in *. intros y H. apply filter_In in H. apply F. tauto.
Qed.
Lemma sorted_seq n : forall a, StronglySorted lt (seq a n).
Proof. induction n; intro a; simpl; constructor; auto. apply Forall_forall. intros x H. apply in_seq in H. lia. Qed.
Lemma sorted_snoc {A} (R : A -> A -> Prop) l x : StronglySorted R l -> (forall y, In y l -> R y x) -> StronglySorted R (l ++ [x]).
Proof.
  induction 1 as [|y l S IH F]; intro H; simpl; [repeat constructor|]. constructor; [apply IH; intros; apply H; simpl; auto|].
  apply Forall_app. split; auto. constructor; auto. apply H. simpl; auto.
Qed.
Lemma sorted_rev l : StronglySorted lt l -> StronglySorted gt (rev l).
Proof.
  induction 1 as [|x l S IH F]; simpl; [constructor|]. apply sorted_snoc; auto. intros y H. apply in_rev in H. rewrite Forall_forall in F. apply F; auto.
Qed.
Lemma sorted_map_seq (R : nat -> nat -> Prop) f m : (forall i j, i < j < m -> R (f i) (f j)) -> StronglySorted R (map f (seq 0 m)).
Proof.
  intro H. assert (G : forall k a, (forall i j, a <= i -> i < j -> j < a + k -> R (f i) (f j)) -> StronglySorted R (map f (seq a k))).
  { induction k as [|k IH]; intros a Ha; simpl; constructor; [apply IH; intros; apply Ha; lia|].
    apply Forall_forall. intros y Hy. apply in_map_iff in Hy. destruct Hy as (j & <- & Hj). apply in_seq in Hj. apply Ha; lia. }
  apply G. intros. apply H. lia.
Qed.

Lemma slice_positions_sliced n a b c : c <> Some 0%Z -> slice_positions n a b c = Ok (sliced n a b c).
Proof.
  intro Hc. unfold slice_positions, sliced. set (k := match c with None => 1%Z | Some k => k end).
  assert (K0 : k <> 0%Z) by (unfold k; destruct c as [z|]; [intro; apply Hc; congruence|lia]). clearbody k. clear Hc.
  destruct (Z.eqb_spec k 0) as [|_]; [contradiction|]. cbv zeta. f_equal. destruct (Z.ltb_spec 0 k) as [KP|KN].
  - set (a' := match a with None => 0%Z | Some i => slice_clip (Z.of_nat n) 0 (Z.of_nat n) i end).
    set (b' := match b with None => Z.of_nat n | Some i => slice_clip (Z.of_nat n) 0 (Z.of_nat n) i end).
    set (a2 := match a with None => 0%Z | Some i => Z.max 0 (from_end n i) end).
    set (b2 := match b with None => Z.of_nat n | Some i => from_end n i end).
    assert (HA : (0 <= a')%Z /\ (a' <= Z.of_nat n)%Z /\ a' = Z.min a2 (Z.of_nat n)).
    { unfold a', a2, slice_clip, from_end. destruct a as [i|]; [|lia]. destruct (Z.ltb_spec i 0); lia. }
    assert (HB : (0 <= b')%Z /\ (b' <= Z.of_nat n)%Z /\ b' = Z.max 0 (Z.min b2 (Z.of_nat n))).
    { unfold b', b2, slice_clip, from_end. destruct b as [i|]; [|lia]. destruct (Z.ltb_spec i 0); lia. }
    clearbody a' b' a2 b2. destruct HA as (A1 & A2 & A3), HB as (B1 & B2 & B3).
    apply sorted_ext with (R := lt); try (intros; lia).
    + apply sorted_map_seq. intros i j [H1 H2]. apply Z2Nat.inj_lt; nia.
    + apply sorted_filter, sorted_seq.
    + intro x. rewrite in_map_iff, filter_In, in_seq, !andb_true_iff, Z.leb_le, Z.ltb_lt, Z.eqb_eq. split.
      * intros (j & <- & Hj). apply in_seq in Hj. destruct (Z.ltb_spec a' b') as [L|L]; [|simpl in Hj; lia].
        assert (Hj' : (Z.of_nat j <= (b' - a' - 1)/k)%Z) by lia.
        assert (M : (k * ((b' - a' - 1)/k) <= b' - a' - 1)%Z) by (apply Z.mul_div_le; lia).
        assert (M2 : (Z.of_nat j * k <= b' - a' - 1)%Z) by nia. clear M Hj'.
        assert (a2 = a') by lia. subst a2. rewrite Z2Nat.id by nia.
        assert (X : (0 <= Z.of_nat j * k)%Z) by nia.
        replace (a' + Z.of_nat j * k - a')%Z with (Z.of_nat j * k)%Z by ring. rewrite Z.mod_mul by lia. repeat split; try lia.
      * intros ([_ Hx] & [[L1 L2] L3]). assert (a2 = a') by lia. subst a2.
        apply Z.mod_divide in L3; [|lia]. destruct L3 as [q Q]. assert (0 <= q)%Z by nia. exists (Z.to_nat q). rewrite Z2Nat.id by auto.
        split; [lia|]. apply in_seq. destruct (Z.ltb_spec a' b') as [L|L]; [|lia].
        assert (q <= (b' - a' - 1)/k)%Z by (apply Z.div_le_lower_bound; lia). lia.
  - assert (KP : (0 < - k)%Z) by lia. set (h := (- k)%Z) in *. replace k with (- h)%Z by lia. clearbody h. clear KN K0 k.
    set (a' := match a with None => (Z.of_nat n - 1)%Z | Some i => slice_clip (Z.of_nat n) (-1) (Z.of_nat n - 1) i end).
    set (b' := match b with None => (-1)%Z | Some i => slice_clip (Z.of_nat n) (-1) (Z.of_nat n - 1) i end).
    set (a2 := match a with None => (Z.of_nat n - 1)%Z | Some i => Z.min (Z.of_nat n - 1) (from_end n i) end).
    set (b2 := match b with None => (-1)%Z | Some i => from_end n i end).
    assert (HA : (-1 <= a')%Z /\ (a' < Z.of_nat n)%Z /\ a' = Z.max a2 (-1)).
    { unfold a', a2, slice_clip, from_end. destruct a as [i|]; [|lia]. destruct (Z.ltb_spec i 0); lia. }
    assert (HB : (-1 <= b')%Z /\ (b' < Z.of_nat n)%Z /\ b' = Z.max (-1) (Z.min b2 (Z.of_nat n - 1))).
    { unfold b', b2, slice_clip, from_end. destruct b as [i|]; [|lia]. destruct (Z.ltb_spec i 0); lia. }
    clearbody a' b' a2 b2. destruct HA as (A1 & A2 & A3), HB as (B1 & B2 & B3).
    assert (M : forall j, (b' < a')%Z -> (Z.of_nat j <= (a' - b' - 1)/h)%Z -> (Z.of_nat j * h <= a' - b' - 1)%Z).
    { intros j L Hj. assert (M : (h * ((a' - b' - 1)/h) <= a' - b' - 1)%Z) by (apply Z.mul_div_le; lia). nia. }
    apply sorted_ext with (R := gt); try (intros; lia).
    + apply sorted_map_seq. intros i j [H1 H2]. destruct (Z.ltb_spec b' a') as [L|L]; [|simpl in H2; lia].
      specialize (M j L ltac:(lia)). assert (Z.of_nat i * h < Z.of_nat j * h)%Z by nia. apply Z2Nat.inj_lt; lia.
    + apply sorted_filter, sorted_rev, sorted_seq.
    + intro x. rewrite in_map_iff, filter_In, <- in_rev, in_seq, !andb_true_iff, Z.leb_le, Z.ltb_lt, Z.eqb_eq. split.
      * intros (j & <- & Hj). apply in_seq in Hj. destruct (Z.ltb_spec b' a') as [L|L]; [|simpl in Hj; lia].
        specialize (M j L ltac:(lia)). assert (a2 = a') by lia. subst a2.
        assert (X : (0 <= Z.of_nat j * h)%Z) by nia.
        rewrite Z2Nat.id by lia. replace (a' - (a' + Z.of_nat j * - h))%Z with (Z.of_nat j * h)%Z by ring. rewrite Z.mod_mul by lia. repeat split; try lia.
      * intros ([_ Hx] & [[L1 L2] L3]). assert (a2 = a') by lia. subst a2.
        apply Z.mod_divide in L3; [|lia]. destruct L3 as [q Q]. assert (0 <= q)%Z by nia. exists (Z.to_nat q). rewrite Z2Nat.id by auto.
        split; [lia|]. apply in_seq. destruct (Z.ltb_spec b' a') as [L|L]; [|lia].
        assert (q <= (a' - b' - 1)/h)%Z by (apply Z.div_le_lower_bound; lia). lia.
Qed.
Lemma slice_step_0 n a b : slice_positions n a b (Some 0%Z) = Err ValueError.
Proof. reflexivity. Qed.
Lemma sliced_lt n a b c j : In j (sliced n a b c) -> j < n.
Proof.
  unfold sliced. destruct (0 <? _)%Z; intro H; apply filter_In in H; destruct H as [H _]; [|apply in_rev in H]; apply in_seq in H; lia.
Qed.
(** an integer as a slice *)
Lemma filter_single (f : nat -> bool) k : forall n a, (forall j, a <= j < a + n -> f j = (j =? k)) -> filter f (seq a n) = if (a <=? k) && (k <? a + n) then [k] else [].
Proof.
  induction n as [|n IH]; intros a H.
  - simpl. destruct (Nat.leb_spec a k), (Nat.ltb_spec k (a + 0)); auto; lia.
  - cbn [seq filter]. rewrite (H a) by lia. rewrite IH by (intros; apply H; lia). destruct (Nat.eqb_spec a k) as [->|N].
    + destruct (Nat.leb_spec (S k) k); [lia|]. cbn [andb]. destruct (Nat.leb_spec k k), (Nat.ltb_spec k (k + S n)); try lia. reflexivity.
    + destruct (Nat.leb_spec (S a) k), (Nat.leb_spec a k), (Nat.ltb_spec k (S a + n)), (Nat.ltb_spec k (a + S n)); try lia; reflexivity.
Qed.
Lemma int_slice n i : match int_to_slice (IInt i) with ISlice a b c => sliced n a b c | IInt _ => [] end = selected n (IInt i).
Proof.
  unfold int_to_slice, selected. set (a := from_end n i). destruct (Z.eqb_spec i (-1)) as [->|N].
  - unfold sliced. change (0 <? 1)%Z with true. cbv iota zeta. unfold from_end in *. destruct n as [|n]; [reflexivity|].
    subst a. change (if (-1 <? 0)%Z then (-1 + Z.of_nat (S n))%Z else (-1)%Z) with (-1 + Z.of_nat (S n))%Z. replace (Z.max 0 (-1 + Z.of_nat (S n)))%Z with (Z.of_nat n) by lia.
    rewrite filter_single with (k := n).
    + destruct (Nat.leb_spec 0 n), (Nat.ltb_spec n (0 + S n)); try lia. cbn [andb].
      match goal with |- _ = (if ?c then _ else _) => replace c with true end; [f_equal; lia|]. symmetry. apply andb_true_iff. rewrite Z.leb_le, Z.ltb_lt. lia.
    + intros j Hj. rewrite Z.mod_1_r. rewrite Z.eqb_refl, andb_true_r. destruct (Nat.eqb_spec j n), (Z.leb_spec (Z.of_nat n) (Z.of_nat j)), (Z.ltb_spec (Z.of_nat j) (Z.of_nat (S n))); try reflexivity; exfalso; lia.
  - unfold sliced. change (0 <? 1)%Z with true. cbv iota zeta. fold a.
    replace (from_end n (i + 1)) with (a + 1)%Z by (unfold a, from_end; destruct (Z.ltb_spec (i + 1) 0), (Z.ltb_spec i 0); lia).
    destruct (Z.leb_spec 0 a) as [A|A].
    + rewrite filter_single with (k := Z.to_nat a).
      * cbn [andb]. destruct (Nat.leb_spec 0 (Z.to_nat a)); [|lia]. cbn [andb]. destruct (Nat.ltb_spec (Z.to_nat a) (0 + n)), (Z.ltb_spec a (Z.of_nat n)); auto; lia.
      * intros j Hj. rewrite Z.mod_1_r. rewrite Z.eqb_refl, andb_true_r. destruct (Nat.eqb_spec j (Z.to_nat a)), (Z.leb_spec (Z.max 0 a) (Z.of_nat j)), (Z.ltb_spec (Z.of_nat j) (a + 1)); try reflexivity; exfalso; lia.
    + cbn [andb]. apply sorted_ext with (R := lt); try (intros; lia); [apply sorted_filter, sorted_seq|constructor|].
      intro x. split; [|intros []]. intro H. apply filter_In in H. destruct H as [_ H]. rewrite !andb_true_iff, Z.leb_le, Z.ltb_lt in H. lia.
Qed.
Lemma filter_all {A} (f : A -> bool) l : (forall x, In x l -> f x = true) -> filter f l = l.
Proof. induction l as [|x l IH]; intro H; simpl; auto. rewrite H by (simpl; auto). f_equal. apply IH. intros; apply H; simpl; auto. Qed.
Lemma sliced_full n : sliced n None None None = seq 0 n.
Proof.
  unfold sliced. change (0 <? 1)%Z with true. cbv iota zeta. apply filter_all. intros j Hj. apply in_seq in Hj. rewrite Z.mod_1_r. rewrite Z.eqb_refl, !andb_true_iff, Z.leb_le, Z.ltb_lt. lia.
Qed.

(** *** reshaping *)
Lemma size_app s r : size (s ++ r) = size s * size r.
Proof. induction s; simpl; [lia|]. rewrite IHs. lia. Qed.
Lemma size_ones k : size (repeat 1 k) = 1.
Proof. induction k; simpl; lia. Qed.
Fixpoint flatr (s ix : list nat) : nat := match s, ix with _ :: s', i :: ix' => i * size s' + flatr s' ix' | _, _ => 0 end.
Lemma flat_acc s : forall ix acc, length ix = length s -> fold_left (fun acc p => acc * fst p + snd p) (combine s ix) acc = acc * size s + flatr s ix.
Proof.
  induction s as [|d s IH]; intros [|i ix] acc H; try discriminate; [simpl; lia|]. simpl combine. simpl fold_left. rewrite IH by (simpl in H; lia). simpl. nia.
Qed.
Lemma flat_flatr s ix : length ix = length s -> flat s ix = flatr s ix.
Proof. intro H. unfold flat. rewrite flat_acc by auto. lia. Qed.
Lemma flatr_lt s : forall ix, inb s ix -> flatr s ix < size s.
Proof.
  induction s as [|d s IH]; intros ix H; inversion H; subst; simpl; [lia|]. match goal with H : Forall2 lt _ s |- _ => specialize (IH _ H) end. nia.
Qed.
Lemma unflat_flatr s : forall ix, inb s ix -> unflat s (flatr s ix) = ix.
Proof.
  induction s as [|d s IH]; intros ix H; inversion H as [|i d' ix' s' L F]; subst; auto. cbn [flatr unflat].
  assert (flatr s ix' < size s) by (apply flatr_lt; auto). rewrite Nat.div_add_l by lia. rewrite Nat.div_small by auto. rewrite Nat.add_0_r.
  rewrite Nat.add_comm, Nat.mod_add by lia. rewrite Nat.mod_small by auto. rewrite IH; auto.
Qed.
Lemma flatr_ones k r jx : flatr (repeat 1 k ++ r) (repeat 0 k ++ jx) = flatr r jx.
Proof. induction k; simpl; auto. Qed.
(** axes of length one do not change positions *)
Lemma flatr_insert s k r ix jx : length ix = length s -> flatr (s ++ repeat 1 k ++ r) (ix ++ repeat 0 k ++ jx) = flatr (s ++ r) (ix ++ jx).
Proof.
  revert ix; induction s as [|d s IH]; intros [|i ix] H; try discriminate; [apply flatr_ones|]. simpl. rewrite IH by (simpl in H; lia).
  rewrite !size_app, size_ones. lia.
Qed.
Lemma inb_app s r ix jx : inb s ix -> inb r jx -> inb (s ++ r) (ix ++ jx).
Proof. intros H1 H2. unfold inb in *. apply Forall2_app; auto. Qed.
Lemma inb_app_inv s r ix : inb (s ++ r) ix -> exists a b, ix = a ++ b /\ inb s a /\ inb r b.
Proof. intro H. apply Forall2_app_inv_r in H. destruct H as (a & b & H1 & H2 & ->). exists a, b. auto. Qed.
Lemma inb_zeros k : inb (repeat 1 k) (repeat 0 k).
Proof. induction k; simpl; constructor; auto. Qed.
Lemma inb_ones_inv k ix : inb (repeat 1 k) ix -> ix = repeat 0 k.
Proof. revert ix; induction k; intros ix H; inversion H; subst; auto. simpl. f_equal; [lia|]. apply IHk. auto. Qed.

(** inserting and removing axes of length one *)
Lemma reshape_insert {V} (x : arr V) s k r : shp x = s ++ r -> exists y, reshape x (s ++ repeat 1 k ++ r) = Ok y /\ shp y = s ++ repeat 1 k ++ r /\
  forall ix jx, inb s ix -> inb r jx -> dat y (ix ++ repeat 0 k ++ jx) = dat x (ix ++ jx).
Proof.
  intro E. unfold reshape. rewrite E, !size_app, size_ones, Nat.mul_1_l, Nat.eqb_refl. eexists. split; [reflexivity|]. split; [reflexivity|].
  intros ix jx H1 H2. cbn [dat shp]. rewrite flat_flatr. 2:{ rewrite !app_length, !repeat_length, (inb_length _ _ H1), (inb_length _ _ H2). auto. }
  rewrite flatr_insert by (apply inb_length; auto). rewrite unflat_flatr; auto. apply inb_app; auto.
Qed.
Lemma reshape_remove {V} (x : arr V) s k r : shp x = s ++ repeat 1 k ++ r -> exists y, reshape x (s ++ r) = Ok y /\ shp y = s ++ r /\
  forall ix jx, inb s ix -> inb r jx -> dat y (ix ++ jx) = dat x (ix ++ repeat 0 k ++ jx).
Proof.
  intro E. unfold reshape. rewrite E, !size_app, size_ones, Nat.mul_1_l, Nat.eqb_refl. eexists. split; [reflexivity|]. split; [reflexivity|].
  intros ix jx H1 H2. cbn [dat shp]. rewrite flat_flatr. 2:{ rewrite !app_length, (inb_length _ _ H1), (inb_length _ _ H2). auto. }
  rewrite <- (flatr_insert s k) by (apply inb_length; auto). rewrite unflat_flatr; auto. apply inb_app; auto. apply inb_app; auto. apply inb_zeros.
Qed.

(** *** broadcasting shapes with the same number of axes *)
Lemma combine_rev {A B} (l : list A) : forall (m : list B), length l = length m -> combine (rev l) (rev m) = rev (combine l m).
Proof.
  induction l as [|x l IH]; intros [|y m] H; try discriminate; auto. simpl. rewrite <- IH by (simpl in H; lia).
  assert (G : forall (l1 : list A) (m1 : list B) l2 m2, length l1 = length m1 -> combine (l1 ++ l2) (m1 ++ m2) = combine l1 m1 ++ combine l2 m2).
  { clear. induction l1 as [|x l1 IH]; intros [|y m1] l2 m2 H; try discriminate; auto. simpl. rewrite IH by (simpl in H; lia). auto. }
  rewrite G; auto. rewrite !rev_length. simpl in H. lia.
Qed.
Lemma bixr_pick s : forall ix, length ix = length s -> bixr s ix = pick s ix.
Proof. induction s as [|d s IH]; intros [|i ix] H; try discriminate; auto. unfold pick in *. simpl. rewrite IH by (simpl in H; lia). auto. Qed.
Lemma bidx_pick s ix : length ix = length s -> bidx s ix = pick s ix.
Proof.
  intro H. unfold bidx. rewrite bixr_pick by (rewrite !rev_length; auto). unfold pick. rewrite combine_rev by auto. rewrite map_rev, rev_involutive. auto.
Qed.
Lemma agree_length r s : agree r s -> length r = length s.
Proof. induction 1; simpl; auto. Qed.
Lemma agree_rev r s : agree r s -> agree (rev r) (rev s).
Proof. induction 1; simpl; [constructor|]. apply Forall2_app; auto. Qed.
Lemma bshr_agree r s : length r = length s -> (agree r s <-> exists w, bshr r s = Some w) /\ (agree r s -> bshr r s = Some (wide r s)).
Proof.
  revert s; induction r as [|a r IH]; intros [|b s] L; try discriminate.
  - split; [split; [exists []; auto|constructor]|auto].
  - destruct (IH s ltac:(simpl in L; lia)) as [IH1 IH2]. assert (F : agree (a :: r) (b :: s) -> bshr (a :: r) (b :: s) = Some (wide (a :: r) (b :: s))).
    { intro H. inversion H as [|? ? ? ? H1 H2]; subst. simpl. rewrite IH2 by auto. unfold wide. simpl. destruct (Nat.eqb_spec a b) as [->|N]; [destruct (Nat.eqb_spec b 1); congruence|].
      destruct (Nat.eqb_spec a 1); auto. destruct (Nat.eqb_spec b 1); auto. lia. }
    split; auto. split; eauto. intros [w H]. simpl in H. destruct (bshr r s) as [w'|] eqn:E; [|discriminate]. constructor; [|apply IH1; eauto].
    destruct (Nat.eqb_spec a b); auto. destruct (Nat.eqb_spec a 1); auto. destruct (Nat.eqb_spec b 1); auto. discriminate.
Qed.
Lemma bshape_agree r s : length r = length s -> (agree r s <-> exists w, bshape r s = Some w) /\ (agree r s -> bshape r s = Some (wide r s)).
Proof.
  intro L. unfold bshape. destruct (bshr_agree (rev r) (rev s)) as [H1 H2]; [rewrite !rev_length; auto|].
  assert (G : agree r s -> agree (rev r) (rev s)) by apply agree_rev.
  assert (G' : agree (rev r) (rev s) -> agree r s) by (intro H; apply agree_rev in H; rewrite !rev_involutive in H; auto).
  split.
  - split; [intro H; rewrite H2 by auto; simpl; eauto|]. intros [w H]. apply G', H1. destruct (bshr (rev r) (rev s)); [eauto|discriminate].
  - intro H. rewrite H2 by auto. simpl. f_equal. unfold wide. rewrite combine_rev by auto. rewrite map_rev, rev_involutive. auto.
Qed.
Lemma bshape_nil_r a : bshape a [] = Some a.
Proof. apply bshape_can_r. reflexivity. Qed.

(** *** indexing *)
Lemma norm_index_from_end d i k : norm_index d i = Some k <-> (0 <= from_end d i < Z.of_nat d)%Z /\ k = Z.to_nat (from_end d i).
Proof.
  unfold norm_index, from_end. destruct (Z.leb_spec 0 i), (Z.ltb_spec i (Z.of_nat d)), (Z.leb_spec (- Z.of_nat d) i), (Z.ltb_spec i 0); cbn [andb]; try lia;
    first [split; [discriminate|intros [? ?]; exfalso; lia]
          |split; [intro E; injection E as <-; split; [lia|f_equal; lia]|intros [_ ->]; do 2 f_equal; lia]].
Qed.
Lemma index_shape_ok s : forall key, key_ok s key -> exists r f, index_shape s key = Ok (r, f) /\
  (forall r' ix jx, picks s key r' ix jx -> r' = r /\ f ix = jx) /\ (forall ix, inb r ix -> picks s key r ix (f ix)).
Proof.
  induction s as [|d s IH]; intros [|k key] K.
  - exists [], (fun ix => ix). split; [reflexivity|]. split; [intros r' ix jx H; inversion H; auto|intros; constructor].
  - destruct k; destruct K.
  - exists (d :: s), (fun ix => ix). split; [reflexivity|]. split; [intros r' ix jx H; inversion H; auto|intros; constructor].
  - destruct k as [i|a b c]; destruct K as [K1 K2]; destruct (IH _ K2) as (r & f & E & P & Q).
    + assert (N : norm_index d i = Some (Z.to_nat (from_end d i))) by (apply norm_index_from_end; auto).
      exists r, (fun ix => Z.to_nat (from_end d i) :: f ix). cbn [index_shape]. rewrite N, E. split; [reflexivity|]. split.
      * intros r' ix jx H. inversion H; subst. match goal with H : picks s _ _ _ _ |- _ => destruct (P _ _ _ H) as [-> <-] end. auto.
      * intros ix H. constructor; auto.
    + cbn [index_shape]. rewrite (slice_positions_sliced d a b c K1), E. cbv beta iota delta [rbind]. do 2 eexists. split; [reflexivity|]. split.
      * intros r' ix jx H. inversion H; subst. match goal with H : picks s _ _ _ _ |- _ => destruct (P _ _ _ H) as [-> <-] end. auto.
      * intros ix H. inversion H; subst. constructor; auto.
Qed.
Lemma index_shape_err s : forall key, ~ key_ok s key -> exists e, index_shape s key = Err e.
Proof.
  induction s as [|d s IH]; intros [|k key] K; try (exfalso; apply K; exact I); [destruct k; eexists; reflexivity|].
  destruct k as [i|a b c]; cbn [index_shape].
  - destruct (norm_index d i) as [j|] eqn:N; [|eexists; reflexivity]. apply norm_index_from_end in N. destruct (IH key) as [e ->]; [intro; apply K; split; tauto|]. eexists; reflexivity.
  - destruct c as [[| |]|].
    + rewrite slice_step_0. eexists; reflexivity.
    + rewrite slice_positions_sliced by discriminate. cbv beta iota delta [rbind]. destruct (IH key) as [e ->]; [intro; apply K; split; [discriminate|auto]|]. eexists; reflexivity.
    + rewrite slice_positions_sliced by discriminate. cbv beta iota delta [rbind]. destruct (IH key) as [e ->]; [intro; apply K; split; [discriminate|auto]|]. eexists; reflexivity.
    + rewrite slice_positions_sliced by discriminate. cbv beta iota delta [rbind]. destruct (IH key) as [e ->]; [intro; apply K; split; [discriminate|auto]|]. eexists; reflexivity.
Qed.
(** keys followed by a full slice *)
Lemma key_ok_snoc v : forall key n, key_ok v key <-> key_ok (v ++ [n]) (key ++ [full]) .
Proof.
  induction v as [|d v IH]; intros [|k key] n; cbn [app key_ok].
  - unfold full. split; [split; [discriminate|exact I]|auto].
  - destruct k as [i|a b c]; (split; [intros []|]); intros [_ H]; destruct key as [|[]]; cbn in H; tauto.
  - unfold full. split; [split; [discriminate|destruct (v ++ [n]); exact I]|auto].
  - destruct k as [i|a b c]; rewrite (IH key n); tauto.
Qed.
Lemma nth_sliced_full n j : j < n -> nth j (sliced n None None None) 0 = j.
Proof. intro H. rewrite sliced_full, seq_nth; auto. Qed.
Lemma length_sliced_full n : length (sliced n None None None) = n.
Proof. rewrite sliced_full, seq_length. auto. Qed.
Lemma picks_full_snoc v key r ix jx n j : picks v key r ix jx -> length key <= length v -> j < n -> inb r ix ->
  picks (v ++ [n]) (key ++ [full]) (r ++ [n]) (ix ++ [j]) (jx ++ [j]).
Proof.
  intros P. revert n j. induction P as [s ix|d s i key r ix jx H P IH|d s a b c key r j0 ix jx H P IH]; intros n j L J I.
  - cbn [app]. destruct s as [|d s].
    + inversion I; subst. cbn [app]. assert (Q : picks [n] [full] [length (sliced n None None None)] [j] [nth j (sliced n None None None) 0]) by (constructor; [discriminate|constructor]).
      rewrite length_sliced_full, nth_sliced_full in Q by auto. exact Q.
    + inversion I as [|i d' ix' s' I1 I2]; subst. cbn [app].
      assert (Q : picks (d :: s ++ [n]) [full] (length (sliced d None None None) :: s ++ [n]) (i :: ix' ++ [j]) (nth i (sliced d None None None) 0 :: ix' ++ [j])) by (constructor; [discriminate|constructor]).
      rewrite length_sliced_full, nth_sliced_full in Q by auto. exact Q.
  - cbn [app]. constructor; auto. apply IH; auto. simpl in L; lia.
  - cbn [app]. inversion I; subst. constructor; auto. apply IH; auto. simpl in L; lia.
Qed.
