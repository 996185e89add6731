(** NumPy arrays: a shape and a total function from index lists to entries; only
    in-bounds entries are meaningful.  Broadcasting follows NumPy's rules (axes are
    aligned from the last one, axes of length one are stretched). *)
From Coq Require Import List Arith Bool Lia.
From Verif Require Import Base.
Import ListNotations.

Record arr (V : Type) := mkArr { shp : list nat; dat : list nat -> V }.
Arguments mkArr {V} shp dat.
Arguments shp {V} a.
Arguments dat {V} a ix.

(** in-bounds indices *)
Definition inb (s ix : list nat) : Prop := Forall2 lt ix s.

Definition aeq {V} (a b : arr V) : Prop :=
  shp a = shp b /\ forall ix, inb (shp a) ix -> dat a ix = dat b ix.

(** 0-dimensional array *)
Definition ascalar {V} (v : V) : arr V := mkArr [] (fun _ => v).

(** *** Broadcasting of shapes (on reversed shapes) *)
Fixpoint bshr (a b : list nat) : option (list nat) :=
  match a, b with
  | [], _ => Some b
  | _, [] => Some a
  | x :: a', y :: b' =>
      match bshr a' b' with
      | None => None
      | Some r => if x =? y then Some (x :: r)
                  else if x =? 1 then Some (y :: r)
                  else if y =? 1 then Some (x :: r) else None
      end
  end.
Definition bshape (a b : list nat) : option (list nat) :=
  option_map (@rev nat) (bshr (rev a) (rev b)).

(** shape [a] can be broadcast to shape [w] *)
Fixpoint canr (a w : list nat) : bool :=
  match a, w with
  | [], _ => true
  | _ :: _, [] => false
  | x :: a', y :: w' => ((x =? y) || (x =? 1)) && canr a' w'
  end.
Definition can (a w : list nat) : bool := canr (rev a) (rev w).

(** index of the entry that broadcasting reads (an index too short for the shape
    refers to the first entries along the missing leading axes) *)
Fixpoint bixr (s ix : list nat) : list nat :=
  match s with
  | [] => []
  | d :: s' => match ix with
               | [] => 0 :: bixr s' []
               | i :: ix' => (if d =? 1 then 0 else i) :: bixr s' ix'
               end
  end.
Definition bidx (s ix : list nat) : list nat := rev (bixr (rev s) (rev ix)).

Definition bget {V} (a : arr V) (ix : list nat) : V := dat a (bidx (shp a) ix).

(** np.broadcast_to *)
Definition broadcast_to {V} (a : arr V) (w : list nat) : res (arr V) :=
  if can (shp a) w then Ok (mkArr w (bget a)) else Err ValueError.

(** elementwise binary operation *)
Definition aop {A B C} (f : A -> B -> C) (a : arr A) (b : arr B) : res (arr C) :=
  match bshape (shp a) (shp b) with
  | Some s => Ok (mkArr s (fun ix => f (bget a ix) (bget b ix)))
  | None => Err ValueError
  end.
(** elementwise unary operation *)
Definition amap {A B} (f : A -> B) (a : arr A) : arr B := mkArr (shp a) (fun ix => f (dat a ix)).

(** [buf[...] = a] where buf has shape [w]: as broadcasting, and extra leading
    axes of length one of [a] are dropped. *)
Fixpoint asgr (a w : list nat) : bool :=
  match a, w with
  | [], _ => true
  | x :: a', [] => (x =? 1) && asgr a' []
  | x :: a', y :: w' => ((x =? y) || (x =? 1)) && asgr a' w'
  end.
Definition asg (a w : list nat) : bool := asgr (rev a) (rev w).
Definition assign {V} (w : list nat) (a : arr V) : res (list nat -> V) :=
  if asg (shp a) w then Ok (bget a) else Err ValueError.

(** *** Lemmas *)
Lemma bshr_canr a : forall b r, bshr a b = Some r -> canr a r = true /\ canr b r = true.
Proof.
  induction a as [|x a IH]; intros [|y b] r H; simpl in H.
  - injection H as <-; auto.
  - injection H as <-. split; auto. simpl. rewrite Nat.eqb_refl. simpl.
    clear. induction b as [|z b IH]; simpl; auto. rewrite Nat.eqb_refl; auto.
  - injection H as <-. split; auto. simpl. rewrite Nat.eqb_refl. simpl.
    clear. induction a as [|z b IH]; simpl; auto. rewrite Nat.eqb_refl; auto.
  - destruct (bshr a b) as [q|] eqn:E; [|discriminate].
    destruct (IH _ _ E) as [H1 H2].
    destruct (Nat.eqb_spec x y) as [->|N].
    + injection H as <-. simpl. rewrite Nat.eqb_refl, H1, H2. auto.
    + destruct (Nat.eqb_spec x 1) as [->|N1].
      * injection H as <-. cbn [canr]. rewrite H1, H2, !Nat.eqb_refl, orb_true_r. auto.
      * destruct (Nat.eqb_spec y 1) as [->|N2]; [|discriminate].
        injection H as <-. cbn [canr]. rewrite H1, H2, !Nat.eqb_refl, orb_true_r. auto.
Qed.

Lemma bshape_can a b r : bshape a b = Some r -> can a r = true /\ can b r = true.
Proof.
  unfold bshape, can. destruct (bshr (rev a) (rev b)) as [q|] eqn:E; simpl; [|discriminate].
  intro H. injection H as <-. rewrite rev_involutive. apply bshr_canr; auto.
Qed.

Lemma canr_refl a : canr a a = true.
Proof. induction a; simpl; auto. rewrite Nat.eqb_refl; auto. Qed.
Lemma can_refl a : can a a = true.
Proof. apply canr_refl. Qed.
Lemma can_nil w : can [] w = true.
Proof. reflexivity. Qed.

Lemma bshr_can_l a : forall w, canr a w = true -> bshr a w = Some w.
Proof.
  induction a as [|x a IH]; intros [|y w] H; simpl in *; auto; try discriminate.
  apply andb_true_iff in H. destruct H as [H1 H2]. rewrite (IH _ H2).
  destruct (Nat.eqb_spec x y) as [->|N]; auto.
  destruct (Nat.eqb_spec x 1) as [->|N1]; auto. discriminate.
Qed.
Lemma bshr_comm a : forall b, bshr a b = bshr b a.
Proof.
  induction a as [|x a IH]; intros [|y b]; simpl; auto.
  rewrite IH. destruct (bshr b a); auto.
  destruct (Nat.eqb_spec x y), (Nat.eqb_spec y x); try lia; subst; auto.
  destruct (Nat.eqb_spec x 1), (Nat.eqb_spec y 1); subst; auto; lia.
Qed.
Lemma bshape_can_l a w : can a w = true -> bshape a w = Some w.
Proof.
  unfold can, bshape. intro H. rewrite (bshr_can_l _ _ H). simpl. rewrite rev_involutive; auto.
Qed.
Lemma bshape_can_r a w : can a w = true -> bshape w a = Some w.
Proof.
  unfold can, bshape. intro H. rewrite bshr_comm, (bshr_can_l _ _ H). simpl. rewrite rev_involutive; auto.
Qed.
Lemma bshape_nil_l a : bshape [] a = Some a.
Proof. apply bshape_can_l. reflexivity. Qed.

(** two shapes that fit in [w] fit together, and the result fits in [w] *)
Lemma bshr_canr_both a : forall b w, canr a w = true -> canr b w = true ->
  exists r, bshr a b = Some r /\ canr r w = true.
Proof.
  induction a as [|x a IH]; intros [|y b] w H1 H2; simpl; eauto.
  destruct w as [|z w]; [discriminate|]. simpl in H1, H2.
  apply andb_true_iff in H1, H2. destruct H1 as [H1 H1'], H2 as [H2 H2'].
  destruct (IH b w H1' H2') as (r & -> & Hr).
  rewrite orb_true_iff, !Nat.eqb_eq in H1, H2.
  assert (G : forall d, d = z \/ d = 1 -> canr (d :: r) (z :: w) = true).
  { intros d Hd. cbn [canr]. rewrite Hr, andb_true_r, orb_true_iff, !Nat.eqb_eq. auto. }
  destruct (Nat.eqb_spec x y) as [->|N]; [eauto|].
  destruct (Nat.eqb_spec x 1) as [->|N1]; [eauto|].
  destruct (Nat.eqb_spec y 1) as [->|N2]; [eauto|]. exfalso; lia.
Qed.
Lemma bshape_both a b w : can a w = true -> can b w = true ->
  exists r, bshape a b = Some r /\ can r w = true.
Proof.
  unfold can, bshape. intros H1 H2. destruct (bshr_canr_both _ _ _ H1 H2) as (r & -> & Hr).
  exists (rev r). simpl. rewrite rev_involutive. auto.
Qed.

Lemma canr_trans a : forall b c, canr a b = true -> canr b c = true -> canr a c = true.
Proof.
  induction a as [|x a IH]; intros [|y b] [|z c] H1 H2; simpl in *; auto; try discriminate.
  apply andb_true_iff in H1, H2. destruct H1 as [H1 H1'], H2 as [H2 H2'].
  rewrite (IH _ _ H1' H2'), andb_true_r.
  apply orb_true_iff in H1. rewrite orb_true_iff.
  destruct H1 as [H1|H1]; auto. apply Nat.eqb_eq in H1. subst. apply orb_true_iff; auto.
Qed.
Lemma can_trans a b c : can a b = true -> can b c = true -> can a c = true.
Proof. apply canr_trans. Qed.

Lemma inb_rev s ix : inb s ix <-> inb (rev s) (rev ix).
Proof.
  assert (H : forall (s ix : list nat), Forall2 lt ix s -> Forall2 lt (rev ix) (rev s)).
  { intros s' ix' H. induction H; simpl; auto. apply Forall2_app; auto. }
  unfold inb; split; intro H1; auto. apply H in H1. rewrite !rev_involutive in H1; auto.
Qed.
Lemma inb_length s ix : inb s ix -> length ix = length s.
Proof. intro H. induction H; simpl; auto. Qed.

Lemma canr_asgr a : forall w, canr a w = true -> asgr a w = true.
Proof.
  induction a as [|x a IH]; intros [|y w] H; simpl in *; auto; try discriminate.
  apply andb_true_iff in H. destruct H as [-> H]. simpl. auto.
Qed.
Lemma can_asg a w : can a w = true -> asg a w = true.
Proof. apply canr_asgr. Qed.
Lemma canr_asgr_trans a : forall b c, canr a b = true -> asgr b c = true -> asgr a c = true.
Proof.
  induction a as [|x a IH]; intros [|y b] [|z c] H1 H2; simpl in *; auto; try discriminate;
    apply andb_true_iff in H1, H2; destruct H1 as [H1 H1'], H2 as [H2 H2'].
  - rewrite (IH _ _ H1' H2'), andb_true_r. apply orb_true_iff in H1. destruct H1 as [H1|H1]; auto.
    apply Nat.eqb_eq in H1; subst; auto.
  - rewrite (IH _ _ H1' H2'), andb_true_r. apply orb_true_iff in H1. apply orb_true_iff.
    destruct H1 as [H1|H1]; auto. apply Nat.eqb_eq in H1. subst. apply orb_true_iff; auto.
Qed.
Lemma can_asg_trans a b c : can a b = true -> asg b c = true -> asg a c = true.
Proof. apply canr_asgr_trans. Qed.

Lemma bixr_inb a : forall w ix, asgr a w = true -> inb w ix -> inb a (bixr a ix).
Proof.
  induction a as [|x a IH]; intros [|y w] ix H I; simpl in *; try discriminate; try constructor;
    inversion I as [|i ? ix' ? Hi I']; subst; simpl;
    apply andb_true_iff in H; destruct H as [H H'].
  - apply Nat.eqb_eq in H. subst. constructor; auto. apply (IH []); auto.
  - rewrite orb_true_iff, !Nat.eqb_eq in H.
    constructor; [|apply (IH w); auto]. destruct (Nat.eqb_spec x 1) as [->|N]; lia.
Qed.
Lemma bidx_inb' a w ix : asg a w = true -> inb w ix -> inb a (bidx a ix).
Proof.
  intros H I. apply inb_rev in I. apply inb_rev. unfold bidx. rewrite rev_involutive.
  apply (bixr_inb _ (rev w)); auto.
Qed.
Lemma bidx_inb a w ix : can a w = true -> inb w ix -> inb a (bidx a ix).
Proof. intros H. apply bidx_inb', can_asg; auto. Qed.

Lemma bixr_nil r : forall a, canr a r = true -> bixr a (bixr r []) = bixr a [].
Proof.
  induction r as [|y r IH]; intros [|x a] H; simpl in *; auto; try discriminate.
  apply andb_true_iff in H. destruct H as [_ H]. rewrite IH by auto. destruct (x =? 1); auto.
Qed.
Lemma bixr_bixr a : forall r ix, canr a r = true -> bixr a (bixr r ix) = bixr a ix.
Proof.
  induction a as [|x a IH]; intros r ix H; [reflexivity|].
  destruct r as [|y r]; [discriminate|]. destruct ix as [|i ix]; [apply bixr_nil; auto|].
  simpl in *. apply andb_true_iff in H. destruct H as [H H'].
  rewrite IH by auto. f_equal. rewrite orb_true_iff, !Nat.eqb_eq in H.
  destruct (Nat.eqb_spec x 1) as [->|N]; auto. destruct (Nat.eqb_spec y 1); auto. lia.
Qed.
Lemma canr_length a : forall w, canr a w = true -> length a <= length w.
Proof.
  induction a as [|x a IH]; intros [|y w] H; simpl in *; try lia; try discriminate.
  apply andb_true_iff in H. destruct H as [_ H]. apply IH in H. lia.
Qed.
Lemma can_length a w : can a w = true -> length a <= length w.
Proof. intro H. apply canr_length in H. rewrite !rev_length in H; auto. Qed.
Lemma bidx_bidx a r ix : can a r = true -> bidx a (bidx r ix) = bidx a ix.
Proof.
  intros H1. unfold bidx. rewrite rev_involutive. f_equal. apply bixr_bixr; auto.
Qed.

Lemma bixr_id s : forall ix, inb s ix -> bixr s ix = ix.
Proof.
  induction s as [|d s IH]; intros ix I; inversion I as [|i ? ix' ? Hi I']; subst; auto.
  simpl. rewrite IH by auto. destruct (Nat.eqb_spec d 1) as [->|N]; auto. f_equal. lia.
Qed.
Lemma bidx_id s ix : inb s ix -> bidx s ix = ix.
Proof.
  intro I. unfold bidx. rewrite bixr_id by (apply inb_rev in I; auto). apply rev_involutive.
Qed.
Lemma bidx_nil ix : bidx [] ix = [].
Proof. reflexivity. Qed.
Lemma bget_self {V} (a : arr V) ix : inb (shp a) ix -> bget a ix = dat a ix.
Proof. intro I. unfold bget. rewrite bidx_id; auto. Qed.
Lemma bget_scalar {V} (v : V) ix : bget (ascalar v) ix = v.
Proof. reflexivity. Qed.
Lemma bget_amap {A B} (f : A -> B) a ix : bget (amap f a) ix = f (bget a ix).
Proof. reflexivity. Qed.

(** entries of an elementwise operation, seen through a further broadcast *)
Lemma aop_get {A B C} (f : A -> B -> C) a b r ix : aop f a b = Ok r ->
  bget r ix = f (bget a ix) (bget b ix).
Proof.
  unfold aop. destruct (bshape (shp a) (shp b)) as [s|] eqn:E; [|discriminate].
  intros H. injection H as <-. destruct (bshape_can _ _ _ E) as [H1 H2].
  unfold bget at 1. simpl. unfold bget. rewrite !(bidx_bidx _ s) by auto. auto.
Qed.
Lemma aop_ok {A B C} (f : A -> B -> C) a b w : can (shp a) w = true -> can (shp b) w = true ->
  exists r, aop f a b = Ok r /\ can (shp r) w = true.
Proof.
  intros H1 H2. destruct (bshape_both _ _ _ H1 H2) as (s & E & HC).
  unfold aop. rewrite E. eexists; split; [reflexivity|auto].
Qed.
Lemma aop_can {A B C} (f : A -> B -> C) a b r : aop f a b = Ok r ->
  can (shp a) (shp r) = true /\ can (shp b) (shp r) = true.
Proof.
  unfold aop. destruct (bshape (shp a) (shp b)) as [s|] eqn:E; [|discriminate].
  intro H; injection H as <-. simpl. apply bshape_can; auto.
Qed.

Lemma assign_can {V} w (a : arr V) : can (shp a) w = true -> assign w a = Ok (bget a).
Proof. intro H. unfold assign. rewrite (can_asg _ _ H). reflexivity. Qed.
Lemma assign_ok {V} w (a : arr V) x : assign w a = Ok x -> x = bget a /\ asg (shp a) w = true.
Proof. unfold assign. destruct (asg (shp a) w); [|discriminate]. intro H; injection H as <-; auto. Qed.
