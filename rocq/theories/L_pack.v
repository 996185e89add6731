(** Lemmas on packing and unpacking components. *)
From Coq Require Import String List Arith Bool ZArith Lia.
From Verif Require Import Base BaseNum BaseArr M_sde S_sdes.
Import ListNotations.

Lemma mapr_ok {A B} (f : A -> res B) l : forall bs, mapr f l = Ok bs <-> Forall2 (fun a b => f a = Ok b) l bs.
Proof.
  induction l as [|a l IH]; intros bs; cbn [mapr].
  - split; intro H; [injection H as <-; constructor|inversion H; auto].
  - split.
    + destruct (f a) as [b|] eqn:E; cbn [rbind]; [|discriminate].
      destruct (mapr f l) as [bs'|]; cbn [rbind]; [|discriminate].
      intro H; injection H as <-. constructor; auto. apply IH; auto.
    + intro H. inversion H as [|? b ? bs' H1 H2]; subst. rewrite H1. cbn [rbind].
      apply IH in H2. rewrite H2. reflexivity.
Qed.
Lemma Forall2_len {A B} (P : A -> B -> Prop) l l' : Forall2 P l l' -> length l = length l'.
Proof. induction 1; simpl; auto. Qed.
Lemma Forall2_nth1 {A B} (P : A -> B -> Prop) l l' : Forall2 P l l' -> forall k a, nth_error l k = Some a ->
  exists b, nth_error l' k = Some b /\ P a b.
Proof.
  induction 1 as [|a b l l' H F IH]; intros [|k] c E; try discriminate.
  - injection E as <-. exists b; auto.
  - apply IH in E. auto.
Qed.
Lemma Forall2_nth2 {A B} (P : A -> B -> Prop) l l' : Forall2 P l l' -> forall k b, nth_error l' k = Some b ->
  exists a, nth_error l k = Some a /\ P a b.
Proof.
  induction 1 as [|a b l l' H F IH]; intros [|k] c E; try discriminate.
  - injection E as <-. exists a; auto.
  - apply IH in E. auto.
Qed.

Lemma app2 {A} (a : list A) x y : a ++ [x; y] = (a ++ [x]) ++ [y].
Proof. rewrite <- app_assoc. reflexivity. Qed.
Lemma ins2_snoc k a b : ins2 k (a ++ [b]) = a ++ [k; b].
Proof. unfold ins2. rewrite removelast_last, last_last. reflexivity. Qed.
Lemma pop2_snoc a k b : pop2 (a ++ [k; b]) = a ++ [b].
Proof. unfold pop2. rewrite (app2 a k b), !removelast_last, last_last. reflexivity. Qed.
Lemma dim2_snoc a k b : dim2 (a ++ [k; b]) = k.
Proof. unfold dim2. rewrite (app2 a k b), removelast_last, last_last. reflexivity. Qed.
Lemma set2_snoc a k b j : set2 j (a ++ [k; b]) = a ++ [j; b].
Proof. unfold set2. rewrite (app2 a k b), !removelast_last, last_last. reflexivity. Qed.
Lemma shift2_snoc a k b o : shift2 o (a ++ [k; b]) = a ++ [o + k; b].
Proof. unfold shift2. cbv zeta. rewrite (app2 a k b), !removelast_last, !last_last. reflexivity. Qed.

Lemma Forall2_snoc_inv {A B} (P : A -> B -> Prop) l : forall s p, Forall2 P l (s ++ [p]) ->
  exists a b, l = a ++ [b] /\ Forall2 P a s /\ P b p.
Proof.
  intros s. revert l. induction s as [|y s IH]; intros l p F; inversion F as [|x ? l' ? H F']; subst.
  - inversion F'; subst. exists [], x. auto.
  - destruct (IH _ _ F') as (a & b & -> & F2 & HP). exists (x :: a), b. auto.
Qed.
Lemma inb_snoc s p ix : inb (s ++ [p]) ix <-> exists a b, ix = a ++ [b] /\ inb s a /\ b < p.
Proof.
  split.
  - intro H. apply Forall2_snoc_inv in H. exact H.
  - intros (a & b & -> & H1 & H2). apply Forall2_app; auto.
Qed.
Lemma inb_snoc2 s q p ix : inb (s ++ [q; p]) ix <-> exists a j b, ix = a ++ [j; b] /\ inb s a /\ j < q /\ b < p.
Proof.
  rewrite app2, inb_snoc. split.
  - intros (a & b & -> & H & Hb). apply inb_snoc in H. destruct H as (a' & j & -> & H & Hj).
    exists a', j, b. rewrite <- app2. auto.
  - intros (a & j & b & -> & H & Hj & Hb). exists (a ++ [j]), b. rewrite app2. repeat split; auto.
    apply inb_snoc. eauto.
Qed.

Section Pack.
Context {V : Type} {NV : Num V}.
Variables (addaxis : bool) (vshape : list nat) (paths : nat).
Hypothesis PK : packable addaxis vshape.
Let vp := vshape ++ [paths].
Notation comp := (comp addaxis vshape).

Lemma vshape_split : addaxis = false -> exists v d, vshape = v ++ [d].
Proof. intro E. destruct PK as [H|H]; [congruence|]. destruct (exists_last H) as (v & d & ->). eauto. Qed.

Lemma wshape_eq q : sdes_wshape q addaxis vshape ++ [paths] =
  if addaxis then vshape ++ [q; paths] else removelast vshape ++ [last vshape 0 * q; paths].
Proof. unfold sdes_wshape. destruct addaxis; rewrite app2; reflexivity. Qed.

(** in bounds entries of components are in bounds in the packed array *)
Lemma comp_inb q k ix : k < q -> inb vp ix -> inb (sdes_wshape q addaxis vshape ++ [paths]) (comp k ix).
Proof.
  pose proof vshape_split as VS. intros Hk HI. rewrite wshape_eq. apply inb_snoc in HI. destruct HI as (a & b & -> & HA & HB).
  unfold S_sdes.comp. rewrite removelast_last, last_last. destruct addaxis eqn:E.
  - apply inb_snoc2. exists a, k, b. auto.
  - destruct (VS eq_refl) as (v & d & EV). rewrite EV in *. rewrite removelast_last, last_last.
    apply inb_snoc in HA. destruct HA as (a' & j & -> & HA & HJ). rewrite removelast_last, last_last.
    apply inb_snoc2. exists a', (k * d + j), b. repeat split; auto. nia.
Qed.

(** every entry of the packed array is an entry of exactly one component *)
Lemma comp_cover q ix : inb (sdes_wshape q addaxis vshape ++ [paths]) ix ->
  exists k ix', k < q /\ inb vp ix' /\ ix = comp k ix'.
Proof.
  pose proof vshape_split as VS. rewrite wshape_eq. unfold S_sdes.comp. destruct addaxis eqn:E; intro H.
  - apply inb_snoc2 in H. destruct H as (a & k & b & -> & HA & HK & HB).
    exists k, (a ++ [b]). rewrite removelast_last, last_last. repeat split; auto. apply inb_snoc. eauto.
  - destruct (VS eq_refl) as (v & d & EV). unfold vp. rewrite EV in *. rewrite removelast_last, last_last in *.
    apply inb_snoc2 in H. destruct H as (a & j & b & -> & HA & HJ & HB).
    assert (D : d <> 0) by nia.
    exists (j / d), (a ++ [j mod d; b]). rewrite app2, !removelast_last, !last_last. repeat split.
    + apply Nat.div_lt_upper_bound; auto.
    + apply inb_snoc. exists (a ++ [j mod d]), b. repeat split; auto. apply inb_snoc. exists a, (j mod d).
      repeat split; auto. apply Nat.mod_upper_bound; auto.
    + f_equal. f_equal. rewrite (Nat.div_mod j d) at 1 by auto. lia.
Qed.

Lemma cat_get_comp (xs : list (arr V)) d ix dflt : Forall (fun x => dim2 (shp x) = d) xs ->
  forall k j x, nth_error xs k = Some x -> j < d -> cat_get xs ix (k * d + j) dflt = dat x (set2 j ix).
Proof.
  induction 1 as [|x0 xs H F IH]; intros [|k] j x E Hj; try discriminate; cbn [cat_get].
  - injection E as <-. rewrite H. simpl. rewrite (proj2 (Nat.ltb_lt _ _) Hj). reflexivity.
  - rewrite H. replace (S k * d + j <? d) with false by (symmetry; apply Nat.ltb_ge; lia).
    replace (S k * d + j - d) with (k * d + j) by lia. apply IH; auto.
Qed.

Lemma list_eqb_refl l : list_eqb l l = true.
Proof. induction l; simpl; auto. rewrite Nat.eqb_refl; auto. Qed.

Lemma sum_const {A} (f : A -> nat) d l : Forall (fun x => f x = d) l -> fold_right Nat.add 0 (map f l) = d * length l.
Proof. induction 1; simpl; [lia|]. rewrite IHForall, H. lia. Qed.

(** pack of arrays that fit in the shape of a component *)
Lemma pack_ok xs : xs <> [] -> Forall (fun x => can (shp x) vp = true) xs ->
  exists X, pack addaxis vshape paths xs = Ok X /\ shp X = sdes_wshape (length xs) addaxis vshape ++ [paths] /\
    forall k x ix, nth_error xs k = Some x -> inb vp ix -> dat X (comp k ix) = bget x ix.
Proof.
  pose proof vshape_split as VS. intros NE F. unfold pack. fold vp.
  set (g := fun x : arr V => let y := mkArr vp (bget x) in if addaxis then newaxis y else y).
  assert (EM : mapr (fun x => y <- broadcast_to x vp ;; Ok (if addaxis then newaxis y else y))%res xs = Ok (map g xs)).
  { apply mapr_ok. clear NE. induction F as [|x xs H F IH]; simpl; constructor; auto.
    unfold broadcast_to. rewrite H. reflexivity. }
  rewrite EM. cbn [rbind]. clear EM.
  set (d := if addaxis then 1 else last vshape 0).
  (* common shape of the pieces *)
  assert (SH : exists v, (forall x, shp (g x) = v ++ [d; paths]) /\
     sdes_wshape (length xs) addaxis vshape ++ [paths] = v ++ [d * length xs; paths] /\
     forall k x ix, nth_error xs k = Some x -> inb vp ix ->
       exists a b j, comp k ix = a ++ [k * d + j; b] /\ j < d /\ dat (g x) (a ++ [j; b]) = bget x ix).
  { rewrite wshape_eq. unfold g, d, S_sdes.comp. destruct addaxis eqn:E.
    - exists vshape. split; [|split].
      + intro x. simpl. unfold vp. rewrite ins2_snoc. reflexivity.
      + rewrite Nat.mul_1_l. reflexivity.
      + intros k x ix _ HI. apply inb_snoc in HI. destruct HI as (a & b & -> & HA & HB).
        exists a, b, 0. rewrite removelast_last, last_last. split; [f_equal; f_equal; lia|]. split; [lia|].
        simpl. rewrite pop2_snoc. reflexivity.
    - destruct (VS eq_refl) as (v & n & EV). exists v. split; [|split].
      + intro x. simpl. unfold vp. rewrite EV, last_last, app2. reflexivity.
      + rewrite EV, removelast_last, last_last. reflexivity.
      + intros k x ix _ HI. apply inb_snoc in HI. destruct HI as (a & b & -> & HA & HB).
        rewrite EV in HA. apply inb_snoc in HA. destruct HA as (a' & j & -> & HA & HJ).
        exists a', b, j. rewrite !removelast_last, !last_last, EV, last_last. split; [reflexivity|]. split; [auto|].
        simpl. rewrite app2. reflexivity. }
  destruct SH as (v & S1 & S2 & S3). rewrite S2.
  assert (FD : Forall (fun x => dim2 (shp x) = d) (map g xs)).
  { apply Forall_forall. intros y HY. apply in_map_iff in HY. destruct HY as (x & <- & _).
    rewrite S1, dim2_snoc. reflexivity. }
  destruct (map g xs) as [|y0 ys] eqn:EY; [destruct xs; [congruence|discriminate]|].
  assert (Y0 : shp y0 = v ++ [d; paths]).
  { destruct xs; [congruence|]. injection EY as <- _. apply S1. }
  unfold concat2. rewrite <- EY in *.
  replace (forallb _ _) with true.
  2:{ symmetry. apply forallb_forall. intros y HY. apply in_map_iff in HY. destruct HY as (x & <- & _).
      rewrite S1, Y0. rewrite list_eqb_refl, andb_true_r. apply Nat.leb_le. rewrite app_length. simpl. lia. }
  eexists. split; [reflexivity|]. simpl. split.
  - rewrite Y0, set2_snoc, (sum_const _ d) by auto. rewrite map_length. reflexivity.
  - intros k x ix EX HI. destruct (S3 k x ix EX HI) as (a & b & j & -> & HJ & EG).
    rewrite dim2_snoc. rewrite (cat_get_comp _ d _ _ FD k j (g x)).
    + rewrite set2_snoc. exact EG.
    + rewrite nth_error_map, EX. reflexivity.
    + auto.
Qed.

(** pack fails otherwise *)
Lemma pack_inv xs X : pack addaxis vshape paths xs = Ok X -> xs <> [] /\ Forall (fun x => can (shp x) vp = true) xs.
Proof.
  unfold pack. fold vp. destruct (mapr _ xs) as [ys|] eqn:E; cbn [rbind]; [|discriminate]. intro H. split.
  - intros ->. injection E as <-. discriminate.
  - apply mapr_ok in E. clear H. induction E as [|x y xs ys H F IH]; constructor; auto.
    unfold broadcast_to in H. destruct (can (shp x) vp); auto. discriminate.
Qed.

Lemma unpack1_ok q (X : arr V) k : shp X = sdes_wshape q addaxis vshape ++ [paths] -> k < q ->
  exists y, unpack1 addaxis (last vshape 0) X k = Ok y /\ shp y = vp /\
    forall ix, inb vp ix -> dat y ix = dat X (comp k ix).
Proof.
  pose proof vshape_split as VS. intros ES Hk. unfold unpack1. rewrite ES, wshape_eq. unfold S_sdes.comp. destruct addaxis eqn:E.
  - replace (length (vshape ++ [q; paths]) <? 2) with false
      by (symmetry; apply Nat.ltb_ge; rewrite app_length; simpl; lia).
    rewrite dim2_snoc, (proj2 (Nat.ltb_lt _ _) Hk). eexists. split; [reflexivity|]. simpl.
    rewrite pop2_snoc. split; auto.
  - destruct (VS eq_refl) as (v & d & EV). rewrite EV, removelast_last, last_last.
    replace (length (v ++ [d * q; paths]) <? 2) with false
      by (symmetry; apply Nat.ltb_ge; rewrite app_length; simpl; lia).
    rewrite dim2_snoc. eexists. split; [reflexivity|]. simpl. rewrite set2_snoc.
    unfold vp. rewrite EV, <- app_assoc. split.
    + change ([d] ++ [paths]) with [d; paths]. rewrite Nat.min_l by nia. f_equal. f_equal. nia.
    + intros ix HI. simpl in HI. apply inb_snoc2 in HI. destruct HI as (a & j & b & -> & _).
      rewrite shift2_snoc. rewrite (app2 a j b), !removelast_last, !last_last. reflexivity.
Qed.

Lemma unpack_ok q (X : arr V) : shp X = sdes_wshape q addaxis vshape ++ [paths] ->
  exists ys, unpack q addaxis vshape X = Ok ys /\ length ys = q /\
    forall k y, nth_error ys k = Some y -> shp y = vp /\ forall ix, inb vp ix -> dat y ix = dat X (comp k ix).
Proof.
  intros ES. unfold unpack.
  assert (G : forall n o, o + n <= q -> exists ys, mapr (unpack1 addaxis (last vshape 0) X) (seq o n) = Ok ys /\
     length ys = n /\ forall k y, nth_error ys k = Some y ->
        shp y = vp /\ forall ix, inb vp ix -> dat y ix = dat X (comp (o + k) ix)).
  { induction n as [|n IH]; intros o Ho; cbn [seq mapr].
    - exists []. repeat split; auto; destruct k; discriminate.
    - destruct (unpack1_ok q X o ES ltac:(lia)) as (y & -> & SY & HY). cbn [rbind].
      destruct (IH (S o) ltac:(lia)) as (ys & -> & LY & HYS). cbn [rbind]. exists (y :: ys).
      split; [reflexivity|]. split; [simpl; lia|]. intros [|k] z EZ.
      + injection EZ as <-. rewrite Nat.add_0_r. auto.
      + replace (o + S k) with (S o + k) by lia. apply HYS; auto. }
  destruct (G q 0 (Nat.le_refl _)) as (ys & E & L & H). exists ys. repeat split; auto.
  - apply (H k y); auto.
  - apply (H k y); auto.
Qed.

(** unpack after pack *)
Lemma unpack_pack q xs (X : arr V) : length xs = q -> pack addaxis vshape paths xs = Ok X ->
  exists ys, unpack q addaxis vshape X = Ok ys /\
    Forall2 (fun x y => shp y = vp /\ forall ix, inb vp ix -> dat y ix = bget x ix) xs ys.
Proof.
  intros L H. destruct (pack_inv _ _ H) as [NE F]. destruct (pack_ok xs NE F) as (X' & E & S & G).
  rewrite E in H. injection H as ->. rewrite L in S.
  destruct (unpack_ok q X S) as (ys & -> & LY & HY). exists ys. split; auto.
  assert (ALL : forall k x y, nth_error xs k = Some x -> nth_error ys k = Some y ->
     shp y = vp /\ forall ix, inb vp ix -> dat y ix = bget x ix).
  { intros k x y EX EY. destruct (HY k y EY) as [S1 D1]. split; auto. intros ix HI. rewrite D1 by auto. apply G; auto. }
  clear - ALL L LY. revert ys LY ALL. revert q L. induction xs as [|x xs IH]; intros q L [|y ys] LY ALL; simpl in *; try lia; constructor.
  - apply (ALL 0); auto.
  - apply (IH (length xs) eq_refl); [lia|]. intros k. apply (ALL (S k)).
Qed.

(** pack after unpack *)
Lemma pack_unpack q X ys : 0 < q -> shp X = sdes_wshape q addaxis vshape ++ [paths] ->
  unpack q addaxis vshape X = Ok ys ->
  exists Y, pack addaxis vshape paths ys = Ok Y /\ aeq Y X.
Proof.
  intros HQ SX H. destruct (unpack_ok q X SX) as (ys' & E & LY & HY). rewrite E in H. injection H as ->.
  destruct (pack_ok ys) as (Y & EY & SY & GY).
  - intros ->. simpl in LY. lia.
  - apply Forall_forall. intros y HI. apply In_nth_error in HI. destruct HI as (k & EK).
    destruct (HY k y EK) as [-> _]. apply can_refl.
  - exists Y. split; auto. rewrite LY in SY. split; [congruence|]. intros ix HI. rewrite SY in HI.
    destruct (comp_cover q ix HI) as (k & ix' & HK & HI' & ->).
    destruct (nth_error ys k) as [y|] eqn:EK; [|apply nth_error_None in EK; lia].
    rewrite (GY k y ix' EK HI'). destruct (HY k y EK) as [S1 D1].
    rewrite bget_self by (rewrite S1; auto). apply D1; auto.
Qed.
End Pack.

Lemma comp_inj addaxis vshape paths : packable addaxis vshape -> forall k1 k2 i1 i2,
  inb (vshape ++ [paths]) i1 -> inb (vshape ++ [paths]) i2 ->
  comp addaxis vshape k1 i1 = comp addaxis vshape k2 i2 -> k1 = k2 /\ i1 = i2.
Proof.
  intros PK k1 k2 i1 i2 H1 H2. pose proof (vshape_split addaxis vshape paths PK) as VS.
  apply inb_snoc in H1, H2. destruct H1 as (a1 & b1 & -> & HA1 & HB1), H2 as (a2 & b2 & -> & HA2 & HB2).
  unfold comp. rewrite !removelast_last, !last_last. destruct addaxis.
  - rewrite !app2. intro E. apply app_inj_tail in E. destruct E as [E ->]. apply app_inj_tail in E. destruct E as [-> ->]. auto.
  - destruct (VS eq_refl) as (v & d & ->). rewrite last_last.
    apply inb_snoc in HA1, HA2. destruct HA1 as (c1 & j1 & -> & HC1 & HJ1), HA2 as (c2 & j2 & -> & HC2 & HJ2).
    rewrite !removelast_last, !last_last, !app2. intro E. apply app_inj_tail in E. destruct E as [E ->].
    apply app_inj_tail in E. destruct E as [-> E].
    assert (k1 = k2) by nia. subst. assert (j1 = j2) by lia. subst. auto.
Qed.
