(** Lemmas on ordered time points, [np.unique], [np.array_equal]. *)
From Coq Require Import List ZArith Bool Lia Sorting.Sorted.
From Verif Require Import Base BaseOrd M_paths S_paths.
Import ListNotations.

Section L.
Context {T : Type} {TO : TOrd T} {TL : TOrdLaws T}.

Lemma teq_num_l (a b : T) : teqb a b = true -> isnum a.
Proof. intro H; unfold isnum; eapply teq_trans; [exact H | apply teq_sym; exact H]. Qed.
Lemma teq_num_r (a b : T) : teqb a b = true -> isnum b.
Proof. intro H; apply teq_sym in H; eapply teq_num_l; eauto. Qed.

Lemma before_trans r (a b c : T) : before r a b -> before r b c -> before r a c.
Proof. destruct r; simpl; intros; eapply tlt_trans; eauto. Qed.
Lemma before_irrefl r (a b : T) : teqb a b = true -> ~ before r a b.
Proof.
  intros E H; destruct r; simpl in H.
  - apply teq_sym in E. rewrite (tlt_irrefl _ _ E) in H; discriminate.
  - rewrite (tlt_irrefl _ _ E) in H; discriminate.
Qed.
Lemma before_eq_l r (a b c : T) : teqb a b = true -> (before r a c <-> before r b c).
Proof.
  intro E; destruct r; simpl.
  - rewrite (tlt_eq_r a b c E); tauto.
  - rewrite (tlt_eq_l a b c E); tauto.
Qed.
Lemma before_eq_r r (a b c : T) : teqb a b = true -> (before r c a <-> before r c b).
Proof.
  intro E; destruct r; simpl.
  - rewrite (tlt_eq_l a b c E); tauto.
  - rewrite (tlt_eq_r a b c E); tauto.
Qed.
Lemma before_asym r (a b : T) : before r a b -> ~ before r b a.
Proof.
  intros H1 H2. pose proof (before_trans _ _ _ _ H1 H2) as H.
  apply (before_irrefl r a a); auto.
  destruct r; simpl in H1; apply tlt_num in H1; unfold isnum in *; tauto.
Qed.
Lemma before_num r (a b : T) : before r a b -> isnum a /\ isnum b.
Proof. destruct r; simpl; intro H; apply tlt_num in H; tauto. Qed.
Lemma before_total r (a b : T) : isnum a -> isnum b ->
  before r a b \/ teqb a b = true \/ before r b a.
Proof. intros Ha Hb; destruct r; simpl; destruct (ttotal a b Ha Hb) as [H|[H|H]]; auto. Qed.

Lemma tltb_false_num (a b : T) : isnum a -> isnum b ->
  tltb a b = false -> teqb a b = true \/ tltb b a = true.
Proof. intros Ha Hb H; destruct (ttotal a b Ha Hb) as [E|[E|E]]; auto; congruence. Qed.

(** membership up to numeric equality *)
Lemma InT_nil (t : T) : ~ InT t [].
Proof. intros [s [H _]]; destruct H. Qed.
Lemma InT_cons (t a : T) l : InT t (a :: l) <-> teqb t a = true \/ InT t l.
Proof.
  split.
  - intros [s [[->|H] E]]; [left; auto | right; exists s; auto].
  - intros [E|[s [H E]]]; [exists a | exists s]; simpl; auto.
Qed.
Lemma InT_app (t : T) l1 l2 : InT t (l1 ++ l2) <-> InT t l1 \/ InT t l2.
Proof.
  split.
  - intros [s [H E]]; apply in_app_or in H; destruct H; [left|right]; exists s; auto.
  - intros [[s [H E]]|[s [H E]]]; exists s; split; auto; apply in_or_app; auto.
Qed.
Lemma InT_In (t : T) l : isnum t -> In t l -> InT t l.
Proof. intros N H; exists t; auto. Qed.
Lemma InT_eq (t s : T) l : teqb t s = true -> InT t l -> InT s l.
Proof. intros E [u [H F]]; exists u; split; auto; eapply teq_trans; [apply teq_sym|]; eauto. Qed.
Lemma InT_rev (t : T) l : InT t (rev l) <-> InT t l.
Proof. split; intros [s [H E]]; exists s; split; auto; apply in_rev; auto; rewrite rev_involutive; auto. Qed.

(** sortedness *)
Lemma SS_app r (l1 l2 : list T) :
  StronglySorted (before r) (l1 ++ l2) <->
  StronglySorted (before r) l1 /\ StronglySorted (before r) l2 /\
  (forall a b, In a l1 -> In b l2 -> before r a b).
Proof.
  induction l1 as [|a l1 IH]; simpl.
  - split; [intro; repeat split; auto; [constructor| intros ? ? []] | tauto].
  - split.
    + intro H; inversion_clear H as [|? ? H1 H2]. apply IH in H1. destruct H1 as [H1 [H3 H4]].
      rewrite Forall_app in H2; destruct H2 as [H2 H5].
      repeat split; auto; [constructor; auto|].
      intros c b [->|Hc] Hb; auto. rewrite Forall_forall in H5; auto.
    + intros [H1 [H2 H3]]; inversion_clear H1 as [|? ? H4 H5]. constructor.
      * apply IH; repeat split; auto.
      * apply Forall_app; split; auto. apply Forall_forall; auto.
Qed.

Lemma SS_rev r (l : list T) :
  StronglySorted (before r) l -> StronglySorted (before (negb r)) (rev l).
Proof.
  induction 1 as [|a l H IH F]; simpl; [constructor|].
  apply SS_app; repeat split; auto.
  - repeat constructor.
  - intros b c Hb [<-|[]]. apply in_rev in Hb. rewrite Forall_forall in F.
    specialize (F b Hb). destruct r; exact F.
Qed.

Lemma SS_firstn r n (l : list T) : StronglySorted (before r) l -> StronglySorted (before r) (firstn n l).
Proof. intro H; rewrite <- (firstn_skipn n l) in H; apply SS_app in H; tauto. Qed.
Lemma SS_skipn r n (l : list T) : StronglySorted (before r) l -> StronglySorted (before r) (skipn n l).
Proof. intro H; rewrite <- (firstn_skipn n l) in H; apply SS_app in H; tauto. Qed.

Lemma Forall_firstn {A} (P : A -> Prop) n l : Forall P l -> Forall P (firstn n l).
Proof. intro H; rewrite <- (firstn_skipn n l) in H; apply Forall_app in H; tauto. Qed.
Lemma Forall_skipn {A} (P : A -> Prop) n l : Forall P l -> Forall P (skipn n l).
Proof. intro H; rewrite <- (firstn_skipn n l) in H; apply Forall_app in H; tauto. Qed.

(** np.unique *)
Lemma uinsert_In (x a : T) l : In a (uinsert x l) -> a = x \/ In a l.
Proof.
  induction l as [|y l IH]; simpl; [intuition|].
  destruct (tltb x y); simpl; [intuition|].
  destruct (teqb x y); simpl; [intuition|].
  intros [->|H]; auto. apply IH in H; tauto.
Qed.
Lemma unique_In (a : T) l : In a (unique l) -> In a l.
Proof.
  induction l as [|x l IH]; simpl; auto. intro H; apply uinsert_In in H; intuition.
Qed.
Lemma unique_num l : Forall isnum l -> Forall isnum (unique l).
Proof. rewrite !Forall_forall; intros H x Hx; apply H, unique_In; auto. Qed.

Lemma uinsert_InT (x t : T) l : isnum x -> (InT t (uinsert x l) <-> teqb t x = true \/ InT t l).
Proof.
  intro Nx. induction l as [|y l IH]; simpl.
  - rewrite InT_cons; tauto.
  - destruct (tltb x y) eqn:L; [rewrite !InT_cons; tauto|].
    destruct (teqb x y) eqn:E.
    + rewrite InT_cons. split; [tauto|]. intros [H|H]; auto. left; eapply teq_trans; eauto.
    + rewrite !InT_cons, IH; tauto.
Qed.
Lemma unique_InT (t : T) l : Forall isnum l -> (InT t (unique l) <-> InT t l).
Proof.
  induction 1 as [|x l N F IH]; simpl; [tauto|].
  rewrite uinsert_InT, IH, InT_cons by auto; tauto.
Qed.

Lemma uinsert_sorted (x : T) l : isnum x -> Forall isnum l ->
  StronglySorted (before false) l -> StronglySorted (before false) (uinsert x l).
Proof.
  intros Nx F H; induction H as [|y l H IH G]; simpl.
  - repeat constructor.
  - inversion_clear F as [|? ? Ny Fl].
    destruct (tltb x y) eqn:L.
    + constructor; [constructor; auto|]. constructor; auto.
      eapply Forall_impl; [|exact G]. intros a Ha. eapply before_trans; [exact L | exact Ha].
    + destruct (teqb x y) eqn:E.
      * constructor; auto.
      * constructor; [apply IH; auto|].
        apply Forall_forall; intros a Ha; apply uinsert_In in Ha.
        destruct Ha as [->|Ha].
        -- destruct (tltb_false_num x y) as [E'|L']; auto; congruence.
        -- rewrite Forall_forall in G; auto.
Qed.
Lemma unique_sorted l : Forall isnum l -> StronglySorted (before false) (unique l).
Proof.
  induction 1 as [|x l N F IH]; simpl; [constructor|].
  apply uinsert_sorted; auto. apply unique_num; auto.
Qed.

Lemma unique_id l : Forall isnum l -> StronglySorted (before false) l -> unique l = l.
Proof.
  intros F H; induction H as [|x l H IH G]; simpl; auto.
  inversion_clear F. rewrite IH by auto.
  destruct l as [|y l]; simpl; auto.
  inversion_clear G as [|? ? L _]. simpl in L; rewrite L; auto.
Qed.

Lemma array_equal_F2 (a b : list T) :
  array_equal a b = true <-> Forall2 (fun x y => teqb x y = true) a b.
Proof.
  revert b; induction a as [|x a IH]; destruct b as [|y b]; simpl.
  - split; [constructor|auto].
  - split; intro H; [discriminate | inversion H].
  - split; intro H; [discriminate | inversion H].
  - rewrite andb_true_iff, IH. split.
    + intros [H1 H2]; constructor; auto.
    + intro H; inversion_clear H; auto.
Qed.

Lemma SS_F2 r (a b : list T) :
  Forall2 (fun x y => teqb x y = true) a b ->
  StronglySorted (before r) b -> StronglySorted (before r) a.
Proof.
  induction 1 as [|x y a b E F IH]; intro H; [constructor|].
  inversion_clear H as [|? ? H1 H2]. constructor; auto.
  rewrite Forall_forall in *. intros z Hz.
  assert (exists w, In w b /\ teqb z w = true) as [w [Hw Ew]].
  { clear - F Hz. induction F as [|u v a b E F IH]; [destruct Hz|].
    destruct Hz as [->|Hz]; [exists v; simpl; auto|].
    destruct (IH Hz) as [w [Hw Ew]]; exists w; simpl; auto. }
  apply (before_eq_l r x y z E). apply (before_eq_r r z w y Ew). auto.
Qed.

Lemma F2_num_l (a b : list T) : Forall2 (fun x y => teqb x y = true) a b -> Forall isnum a.
Proof. induction 1; constructor; auto. eapply teq_num_l; eauto. Qed.

(** the validity check of the engine *)
Lemma array_equal_unique l :
  array_equal l (unique l) = true <->
  Forall isnum l /\ StronglySorted (before false) l.
Proof.
  rewrite array_equal_F2. split.
  - intro H. assert (N := F2_num_l _ _ H). split; auto.
    eapply SS_F2; eauto. apply unique_sorted; auto.
  - intros [N H]. rewrite unique_id by auto.
    clear H; induction N; constructor; auto.
Qed.

(** in a strictly ordered list numerically equal elements are at the same position *)
Lemma SS_head_notin r (a : T) l : StronglySorted (before r) (a :: l) -> ~ InT a l.
Proof.
  intros H [s [Hs E]]. inversion_clear H as [|? ? _ F].
  rewrite Forall_forall in F. apply (before_irrefl r a s E); auto.
Qed.

Lemma SS_last r (l : list T) (a d : T) : StronglySorted (before r) (a :: l) ->
  l <> [] -> before r a (last l d).
Proof.
  intros H Hn. inversion_clear H as [|? ? _ F]. rewrite Forall_forall in F. apply F.
  rewrite (app_removelast_last d Hn) at 2. apply in_or_app; right; left; auto.
Qed.
End L.
