(** Lemmas on interpolation of processes. *)
From Coq Require Import List Arith Bool Lia ZArith Reals Lra.
From Verif Require Import Base BaseNum BaseArr BaseNd BaseIdx M_mc M_process S_mc S_process L_nd L_mc L_interp L_process.
Import ListNotations.
Local Open Scope R_scope.

Lemma along_column (p : proc R) r : column p r = along p r.
Proof. reflexivity. Qed.
Lemma along_length {V} (p : proc V) r : length (along p r) = length (pt p).
Proof. unfold along. rewrite map_length, seq_length. reflexivity. Qed.
Lemma along_nth (p : proc R) r i : (i < length (pt p))%nat -> nth i (along p r) 0 = dat (px p) (i :: r).
Proof.
  intro H. unfold along. rewrite nth_indep with (d' := (fun i => dat (px p) (i :: r)) 0%nat) by (rewrite map_length, seq_length; auto).
  rewrite (map_nth (fun i => dat (px p) (i :: r)) (seq 0 (length (pt p))) 0%nat i). rewrite seq_nth; auto.
Qed.
Lemma value_interp1 (p : proc R) kind s r : value p kind s r = interp1 (match kind with Some k => k | None => pk p end) (pt p) (along p r) s.
Proof. reflexivity. Qed.
Lemma interp_entry (p : proc R) kind s ix r : inb (shp s) ix -> dat (interp p kind s) (ix ++ r) = value p kind (dat s ix) r.
Proof.
  intro H. unfold value, interp. cbn [dat shp ascalar]. rewrite skipn_app_exact, firstn_app_exact by (symmetry; apply inb_length; auto). reflexivity.
Qed.
Lemma interp1_linear t x s : (2 <= length t)%nat -> interp1 Linear t x s = interp_linear t x (nth 0 x 0) (last x 0) s.
Proof. intro H. destruct t as [|a [|b t]]; simpl in H; try lia. reflexivity. Qed.
Lemma interp1_nearest t x s : (2 <= length t)%nat -> interp1 Nearest t x s = interp_nearest t x (nth 0 x 0) (last x 0) s.
Proof. intro H. destruct t as [|a [|b t]]; simpl in H; try lia. reflexivity. Qed.
Lemma interp1_one k t x s : length t = 1%nat -> interp1 k t x s = nth 0 x 0.
Proof. intro H. destruct t as [|a [|b t]]; simpl in H; try lia. reflexivity. Qed.

Lemma increasing_le t i j : increasing t -> (i <= j)%nat -> (j < length t)%nat -> nth i t 0 <= nth j t 0.
Proof. intros I H1 H2. destruct (Nat.eq_dec i j) as [->|]; [lra|]. specialize (I i j ltac:(lia) H2). lra. Qed.

(** linear interpolation joins the points *)
Lemma linear_joins t x s : increasing t -> (1 <= length t)%nat -> length x = length t -> joins t x s (interp1 Linear t x s).
Proof.
  intros I N LX. destruct (Nat.eq_dec (length t) 1) as [L|L].
  - rewrite interp1_one by auto. split; [auto|]. split; [|intros i Hi; lia]. intros _. rewrite last_nth, LX, L. reflexivity.
  - rewrite interp1_linear by lia. split; [|split].
    + intro H. destruct (Req_dec s (nth 0 t 0)) as [->|]; [rewrite interp_node; auto; lia|]. apply interp_low. lra.
    + intro H. destruct (Req_dec s (last t 0)) as [->|].
      * rewrite (last_nth t), interp_node by (auto; lia). rewrite last_nth, LX. reflexivity.
      * apply interp_high; auto; lra.
    + intros i Hi Hs. rewrite (interp_in t x _ _ s (S i)); auto; try lia; [|simpl; rewrite Nat.sub_0_r; auto].
      unfold line. cbn [Nat.sub]. rewrite Nat.sub_0_r. specialize (I i (S i) ltac:(lia) Hi). field. lra.
Qed.
Lemma find_segment t s : increasing t -> (1 <= length t)%nat -> nth 0 t 0 < s -> s < last t 0 -> exists i, (S i < length t)%nat /\ nth i t 0 < s <= nth (S i) t 0.
Proof.
  intros I N H0 H1. rewrite last_nth in H1. assert (G : forall k, (k < length t)%nat -> s <= nth k t 0 -> exists i, (S i < length t)%nat /\ nth i t 0 < s <= nth (S i) t 0).
  { induction k as [|k IH]; intros K1 K2; [lra|]. destruct (Rle_dec s (nth k t 0)); [apply IH; auto; lia|]. exists k. split; [auto|lra]. }
  apply (G (length t - 1)%nat); [lia|lra].
Qed.
(** and is determined by this *)
Lemma joins_unique t x s y z : increasing t -> (1 <= length t)%nat -> joins t x s y -> joins t x s z -> y = z.
Proof.
  intros I N (Y1 & Y2 & Y3) (Z1 & Z2 & Z3). destruct (Rle_dec s (nth 0 t 0)) as [H|H]; [rewrite Y1, Z1; auto|].
  destruct (Rle_dec (last t 0) s) as [H'|H']; [rewrite Y2, Z2; auto|].
  destruct (find_segment t s I N) as (i & I1 & I2); try lra. rewrite (Y3 i), (Z3 i); auto; lra.
Qed.

(** *** nearest point *)
Lemma mids_length t : length (mids (V := R) t) = (length t - 1)%nat.
Proof. destruct t as [|a t]; auto. unfold mids. rewrite map_length, combine_length. cbn [length]. lia. Qed.
Lemma mids_nth t j : (S j < length t)%nat -> nth j (mids (V := R) t) 0 = (nth j t 0 + nth (S j) t 0)/2.
Proof.
  intro H. destruct t as [|a t]; [simpl in H; lia|]. unfold mids.
  assert (C : forall (l m : list R) k, (k < length m)%nat -> (k < length l)%nat -> nth k (combine l m) (0, 0) = (nth k l 0, nth k m 0)).
  { clear. induction l as [|a l IH]; intros [|b m] [|k] H1 H2; simpl in *; try lia; auto. apply IH; lia. }
  rewrite nth_indep with (d' := (fun p : R * R => nadd (ndiv (fst p) ntwo) (ndiv (snd p) ntwo)) (0, 0)) by (rewrite map_length, combine_length; cbn [length] in *; lia).
  rewrite (map_nth (fun p : R * R => nadd (ndiv (fst p) ntwo) (ndiv (snd p) ntwo)) _ (0, 0) j). rewrite C by (cbn [length] in *; lia). cbn [fst snd]. simpl nadd. simpl ndiv. simpl ntwo. cbn [nth]. lra.
Qed.
Lemma nearest_at t x lo hi s i : nondecreasing t -> (i < length t)%nat -> nth 0 t 0 <= s <= last t 0 ->
  (i = 0%nat \/ (nth (i - 1) t 0 + nth i t 0)/2 < s) -> (i = (length t - 1)%nat \/ s <= (nth i t 0 + nth (S i) t 0)/2) ->
  interp_nearest t x lo hi s = nth i x 0.
Proof.
  intros M L [S0 S1] A B. unfold interp_nearest. simpl nzero.
  replace (nlt s (nth 0 t 0)) with false by (symmetry; apply nlt_R_false; lra). replace (nlt (last t 0) s) with false by (symmetry; apply nlt_R_false; lra).
  f_equal. destruct (search_left_spec (mids t) s) as (K1 & K2 & K3). set (k := search_left (mids t) s) in *. rewrite mids_length in *.
  assert (k = i); [|lia]. destruct (Nat.lt_trichotomy k i) as [H|[H|H]]; auto; exfalso.
  - destruct A as [->|A]; [lia|]. specialize (K3 ltac:(lia)). rewrite mids_nth in K3 by lia.
    assert (nth k t 0 <= nth (i - 1) t 0) by (apply M; lia). assert (nth (S k) t 0 <= nth i t 0) by (apply M; lia). lra.
  - destruct B as [->|B]; [lia|]. specialize (K2 i H). rewrite mids_nth in K2 by lia. lra.
Qed.
Lemma increasing_nondecreasing t : increasing t -> nondecreasing t.
Proof. intros I i j H1 H2. apply increasing_le; auto. Qed.
Lemma nearest_low t x lo hi s : s < nth 0 t 0 -> interp_nearest (V := R) t x lo hi s = lo.
Proof. intro H. unfold interp_nearest. apply nlt_R in H. simpl nzero. rewrite H. reflexivity. Qed.
Lemma nearest_high t x lo hi s : nth 0 t 0 <= s -> last t 0 < s -> interp_nearest (V := R) t x lo hi s = hi.
Proof. intros H0 H. unfold interp_nearest. simpl nzero. replace (nlt s (nth 0 t 0)) with false by (symmetry; apply nlt_R_false; auto). apply nlt_R in H. rewrite H. reflexivity. Qed.

(** *** broadcasting of arrays of times against values *)
Lemma bshr_app r a b : bshr (r ++ a) (r ++ b) = option_map (app r) (bshr a b).
Proof. induction r as [|d r IH]; simpl; [destruct (bshr a b); auto|]. rewrite IH. destruct (bshr a b); simpl; auto. rewrite Nat.eqb_refl. auto. Qed.
Lemma bshape_app a b r : bshape (a ++ r) (b ++ r) = option_map (fun w => w ++ r) (bshape a b).
Proof. unfold bshape. rewrite !rev_app_distr, bshr_app. destruct (bshr (rev a) (rev b)); simpl; auto. rewrite rev_app_distr, rev_involutive. auto. Qed.
Lemma bixr_app r : forall a jx ix, length jx = length r -> bixr (r ++ a) (jx ++ ix) = bixr r jx ++ bixr a ix.
Proof. induction r as [|d r IH]; intros a [|j jx] ix H; try discriminate; auto. simpl. rewrite IH by (simpl in H; lia). auto. Qed.
Lemma bidx_app a r ix jx : inb r jx -> bidx (a ++ r) (ix ++ jx) = bidx a ix ++ jx.
Proof.
  intro H. unfold bidx. rewrite !rev_app_distr, bixr_app by (rewrite !rev_length; apply inb_length; auto).
  rewrite rev_app_distr. rewrite (bixr_id (rev r)) by (apply inb_rev in H; auto). rewrite rev_involutive. reflexivity.
Qed.
Lemma can_app a w r : can a w = true -> can (a ++ r) (w ++ r) = true.
Proof. unfold can. rewrite !rev_app_distr. intro H. induction (rev r) as [|d l IH]; simpl; auto. rewrite Nat.eqb_refl. auto. Qed.
Lemma bget_app {V} (x : arr V) a r ix jx : shp x = a ++ r -> inb r jx -> bget x (ix ++ jx) = dat x (bidx a ix ++ jx).
Proof. intros E H. unfold bget. rewrite E, bidx_app by auto. reflexivity. Qed.

(** process increments, at each entry *)
Lemma call_entries (p : proc R) kind s ds w : can (shp s) w = true -> can (shp ds) w = true ->
  exists d, call p kind s (Some ds) = Ok d /\ can (shp d) (w ++ tl (shp (px p))) = true /\
    forall ix r, inb w ix -> inb (tl (shp (px p))) r ->
      bget d (ix ++ r) = value p kind (bget s ix + bget ds ix) r - value p kind (bget s ix) r.
Proof.
  intros C1 C2. unfold call. destruct (aop_ok (nadd (V := R)) s ds w C1 C2) as (s1 & E1 & C3). rewrite E1. cbv beta iota delta [rbind].
  set (c := tl (shp (px p))). assert (D1 : can (shp (interp p kind s1)) (w ++ c) = true) by (apply can_app; auto). assert (D2 : can (shp (interp p kind s)) (w ++ c) = true) by (apply can_app; auto).
  destruct (aop_ok (nsub (V := R)) _ _ _ D1 D2) as (d & E2 & C4). exists d. split; auto. split; auto. intros ix r HI HR.
  assert (HA := aop_get _ _ _ _ (ix ++ r) E2). rewrite HA. change (nsub (V := R)) with Rminus.
  rewrite (bget_app (interp p kind s1) (shp s1) c) by auto. rewrite (bget_app (interp p kind s) (shp s) c) by auto.
  rewrite !interp_entry by (eapply bidx_inb; eauto). f_equal. f_equal.
  change (dat s1 (bidx (shp s1) ix)) with (bget s1 ix). rewrite (aop_get _ _ _ _ ix E1). reflexivity.
Qed.

(** broadcasting along axes of length one *)
Lemma pick_app a b ix jx : List.length ix = List.length a -> pick (a ++ b) (ix ++ jx) = pick a ix ++ pick b jx.
Proof.
  unfold pick. revert ix. induction a as [|d a IH]; intros [|i ix] H; try discriminate; auto. cbn [app combine map]. rewrite IH by (simpl in H; lia). auto.
Qed.
Lemma pick_inb a : forall ix, inb a ix -> pick a ix = ix.
Proof. induction a as [|d a IH]; intros ix H; inversion H; subst; auto. unfold pick. cbn [combine map fst snd]. fold (pick a l). rewrite IH by auto. destruct (Nat.eqb_spec d 1); f_equal. lia. Qed.
Lemma pick_ones k : forall ix, List.length ix = k -> pick (repeat 1%nat k) ix = repeat 0%nat k.
Proof. induction k as [|k IH]; intros [|i ix] H; try discriminate; auto. unfold pick. cbn [combine map fst snd repeat Nat.eqb]. f_equal. apply IH. simpl in H. lia. Qed.
Lemma wide_app a b r s : List.length a = List.length b -> wide (a ++ r) (b ++ s) = wide a b ++ wide r s.
Proof. unfold wide. revert b. induction a as [|d a IH]; intros [|e b] H; try discriminate; auto. cbn [app combine map]. rewrite IH by (simpl in H; lia). auto. Qed.
Lemma wide_ones_l a : wide (repeat 1%nat (List.length a)) a = a.
Proof. induction a as [|d a IH]; auto. unfold wide. cbn [List.length repeat combine map fst snd Nat.eqb]. f_equal. exact IH. Qed.
Lemma wide_ones_r a : wide a (repeat 1%nat (List.length a)) = a.
Proof. induction a as [|d a IH]; auto. unfold wide. cbn [List.length repeat combine map fst snd]. destruct (Nat.eqb_spec d 1); f_equal; auto. Qed.
Lemma agree_app a b r s : agree a b -> agree r s -> agree (a ++ r) (b ++ s).
Proof. apply Forall2_app. Qed.
Lemma agree_ones_l a : agree (repeat 1%nat (List.length a)) a.
Proof. unfold agree. induction a; simpl; constructor; auto. Qed.
Lemma agree_ones_r a : agree a (repeat 1%nat (List.length a)).
Proof. unfold agree. induction a; simpl; constructor; auto. Qed.
