(** Lemmas on sources without memory. *)
From Coq Require Import List Arith Bool Lia ZArith Reals Lra.
From Verif Require Import Base BaseNum BaseArr BaseNd BaseIdx M_process M_source S_process S_source L_nd L_process L_process2.
Import ListNotations.

Section Gen.
Context {G : Type}.
Lemma dbind_ok {A B} (m : G -> res A * G) (f : A -> G -> res B * G) g b g' :
  dbind m f g = (Ok b, g') <-> exists a g1, m g = (Ok a, g1) /\ f a g1 = (Ok b, g').
Proof.
  unfold dbind. destruct (m g) as [[a|e] g1]; split.
  - eauto.
  - intros (a' & g2 & E & H). injection E as <- <-. auto.
  - discriminate.
  - intros (a' & g2 & E & H). discriminate.
Qed.
Lemma dres_ok {A} (m : res A) (g : G) a g' : dres m g = (Ok a, g') <-> m = Ok a /\ g' = g.
Proof. unfold dres. split; [intro H; injection H; auto|intros [-> ->]; auto]. Qed.
Lemma dret_ok {A} (x : A) (g : G) a g' : dret x g = (Ok a, g') <-> a = x /\ g' = g.
Proof. unfold dret. split; [intro H; injection H; auto|intros [-> ->]; auto]. Qed.
Lemma each_threaded {I B} (f : I -> G -> res B * G) l : forall g r g', each f l g = (Ok r, g') <-> threaded f l g r g'.
Proof.
  induction l as [|i l IH]; intros g r g'; cbn [each].
  - rewrite dret_ok. split; [intros [-> ->]; constructor|intro H; inversion H; auto].
  - rewrite dbind_ok. split.
    + intros (b & g1 & E1 & H). apply dbind_ok in H. destruct H as (r' & g2 & E2 & H). apply dret_ok in H. destruct H as [-> ->]. econstructor; [exact E1|]. apply IH; auto.
    + intro H. inversion H; subst. exists b, g1. split; auto. apply dbind_ok. apply IH in H6.
      eexists. eexists. split; [exact H6|]. apply dret_ok; auto.
Qed.
Lemma threaded_total {I B} (f : I -> G -> res B * G) l : (forall i g, In i l -> exists b g', f i g = (Ok b, g')) -> forall g, exists r g', threaded f l g r g'.
Proof.
  induction l as [|i l IH]; intros H g; [exists [], g; constructor|]. destruct (H i g (or_introl eq_refl)) as (b & g1 & E). destruct (IH (fun j g J => H j g (or_intror J)) g1) as (r & g2 & T).
  exists ((i, b) :: r), g2. econstructor; eauto.
Qed.
Lemma threaded_fst {I B} (f : I -> G -> res B * G) l g r g' : threaded f l g r g' -> map fst r = l.
Proof. induction 1; simpl; congruence. Qed.
Lemma threaded_in {I B} (f : I -> G -> res B * G) l g r g' : threaded f l g r g' -> forall i b, In (i, b) r -> exists g1 g2, f i g1 = (Ok b, g2).
Proof. induction 1; simpl; [tauto|]. intros j c [E|H1]; [injection E as <- <-; eauto|eauto]. Qed.
(** the same results by another function *)
Lemma threaded_map {I B C} (f : I -> G -> res B * G) (h : I -> G -> res C * G) (k : I -> C -> B) l : (forall i g b g', In i l -> f i g = (Ok b, g') -> exists c, h i g = (Ok c, g') /\ b = k i c) ->
  forall g r g', threaded f l g r g' -> exists r', threaded h l g r' g' /\ r = map (fun p => (fst p, k (fst p) (snd p))) r'.
Proof.
  intros H g r g' T. induction T as [g|i l g b g1 r g2 E T IH]; [exists []; split; [constructor|auto]|].
  destruct (H i g b g1 (or_introl eq_refl) E) as (c & E1 & ->). destruct (IH (fun j g b g' J => H j g b g' (or_intror J))) as (r' & T' & ->). exists ((i, c) :: r'). split; [econstructor; eauto|reflexivity].
Qed.
End Gen.

Lemma find_fst {B} (r : list (list nat * B)) i b : NoDup (map fst r) -> In (i, b) r -> find (fun p => if list_eq_dec Nat.eq_dec (fst p) i then true else false) r = Some (i, b).
Proof.
  induction r as [|[j c] r IH]; simpl; [tauto|]. intros N [E|H].
  - injection E as -> ->. destruct (list_eq_dec Nat.eq_dec i i); [auto|contradiction].
  - inversion N; subst. destruct (list_eq_dec Nat.eq_dec j i) as [->|]; [|auto]. exfalso. apply H2. apply in_map_iff. exists (i, b). auto.
Qed.
Lemma assembled_entry {B} (d : B) w s l ix r : map fst l = ndindex w -> inb w ix -> exists a, In (ix, a) l /\ dat (assembled d w s l) (ix ++ r) = bget a r.
Proof.
  intros F I. assert (H : In ix (map fst l)) by (rewrite F; apply in_ndindex; auto). apply in_map_iff in H. destruct H as [[i a] [E H]]. simpl in E. subst i. exists a. split; auto.
  unfold assembled. cbn [dat]. rewrite firstn_app_exact, skipn_app_exact by (symmetry; apply inb_length; auto). rewrite (find_fst l ix a); auto. rewrite F. apply NoDup_ndindex.
Qed.
Lemma swap_last2_shape {B} (a : arr B) s m n : shp a = s ++ [m; n] -> shp (swap_last2 a) = s ++ [n; m].
Proof. intro E. unfold swap_last2. cbn [shp]. rewrite E, rev_app_distr. cbn [rev app]. rewrite <- !app_assoc, rev_involutive. reflexivity. Qed.
Lemma swap_last2_entry {B} (a : arr B) ix m j : dat (swap_last2 a) (ix ++ [m; j]) = dat a (ix ++ [j; m]).
Proof. unfold swap_last2. cbn [dat]. rewrite rev_app_distr. cbn [rev app]. rewrite <- !app_assoc, rev_involutive. reflexivity. Qed.

Local Open Scope R_scope.
Lemma nabs_R x : nabs (V := R) x = Rabs x.
Proof. unfold nabs. change (nmax (V := R)) with Rmax. change (nsub (V := R)) with Rminus. change (@nzero R _) with 0. unfold Rmax, Rabs. destruct (Rle_dec x (0 - x)), (Rcase_abs x); lra. Qed.
Lemma nsign_R x : nsign (V := R) x = if Rlt_dec 0 x then 1%Z else if Rlt_dec x 0 then (-1)%Z else 0%Z.
Proof. unfold nsign. simpl. destruct (Rlt_dec 0 x), (Rlt_dec x 0); reflexivity. Qed.

(** the normalization of Wiener increments *)
Lemma scale_entries (dz dt : arr R) w s : shp dt = w -> shp dz = w ++ s ->
  exists e, reshape dt (w ++ repeat 1%nat (List.length s)) = Ok e /\
  exists z, aop nmul dz (amap (fun x => nsqrt (nabs x)) e) = Ok z /\ shp z = w ++ s /\
    forall ix r, inb w ix -> inb s r -> dat z (ix ++ r) = dat dz (ix ++ r) * sqrt (Rabs (dat dt ix)).
Proof.
  intros E1 E2. rewrite <- (app_nil_r w) in E1. destruct (reshape_insert dt w (List.length s) [] E1) as (e & R1 & R2 & R3). rewrite app_nil_r in *. exists e. split; [exact R1|].
  assert (A : agree (shp dz) (shp (amap (fun x => nsqrt (V := R) (nabs x)) e))).
  { cbn [amap shp]. rewrite E2, R2. apply agree_app; [|apply agree_ones_r]. clear. unfold agree. induction w; constructor; auto. }
  destruct (bshape_agree _ _ (agree_length _ _ A)) as [_ B]. unfold aop. rewrite (B A). eexists. split; [reflexivity|]. cbn [shp dat amap] in *. rewrite E2, R2. split.
  - rewrite wide_app by auto. rewrite wide_ones_r. f_equal. clear. induction w as [|d w IH]; auto. unfold wide in *. cbn [combine map fst snd]. rewrite IH. destruct (d =? 1)%nat; auto.
  - intros ix r I1 I2. unfold bget. cbn [amap shp dat]. rewrite E2, R2. assert (L1 := inb_length _ _ I1). assert (L2 := inb_length _ _ I2). rewrite !bidx_pick by (rewrite !app_length, ?repeat_length; lia).
    rewrite !pick_app by auto. rewrite (pick_inb w), (pick_inb s) by auto. rewrite pick_ones by auto. rewrite <- (app_nil_r (ix ++ repeat 0%nat (List.length s))), <- app_assoc, R3 by (auto; constructor).
    rewrite app_nil_r. cbn [nmul Num_R]. change (nsqrt (V := R)) with sqrt. rewrite nabs_R. reflexivity.
Qed.
