(** Lemmas on the records of jumps of compound Poisson sources with memory. *)
From Coq Require Import List Arith Bool Lia ZArith Reals Lra Sorted.
From Verif Require Import Base BaseNum BaseArr BaseNd BaseIdx M_process M_source M_true S_process S_source S_mc S_true S_true3 L_nd L_sdes L_process L_process2 L_source L_true L_true2 L_true3 P_source P_source3.
Import ListNotations.
Local Open Scope R_scope.

Section Records.
Variable zs : list nat.
Definition longest (J : list nat -> list R) : nat := list_max (map (fun r => List.length (J r)) (ndindex zs)).
Definition matches (n : arr Z) (J : list nat -> list R) : Prop := shp n = zs /\ forall r, inb zs r -> dat n r = Z.of_nat (List.length (J r)).
Definition padded (w : nat) (J : list nat -> list R) (yy : arr R) : Prop :=
  shp yy = zs ++ [w] /\ forall r j, inb zs r -> (j < w)%nat -> dat yy (r ++ [j]) = nth j (J r) 0.
Definition present (J : list nat -> list R) (k : nat) : list nat := filter (fun i => negb (List.length (with_jumps zs J i) =? 0)%nat) (seq 1 k).

Lemma filter_ext_nd (f h : list nat -> bool) : (forall r, inb zs r -> f r = h r) -> filter f (ndindex zs) = filter h (ndindex zs).
Proof. intro H. apply filter_ext_in. intros r I. apply H, in_ndindex; auto. Qed.
Lemma entries_matches n J i : matches n J -> entries_with n i = with_jumps zs J i.
Proof.
  intros [S H]. unfold entries_with, with_jumps. rewrite S. apply filter_ext_nd. intros r I. rewrite H by auto. destruct (Nat.eqb_spec (List.length (J r)) i) as [<-|N]; [apply Z.eqb_refl|apply Z.eqb_neq; lia].
Qed.
Lemma existsb_filter {A} (f : A -> bool) l : existsb f l = negb (List.length (filter f l) =? 0)%nat.
Proof. induction l as [|a l IH]; simpl; auto. destruct (f a); simpl; auto. Qed.
Lemma present_matches n J k : matches n J -> counts_present n k = present J k.
Proof.
  intro M. unfold counts_present, present. apply filter_ext. intro i. rewrite existsb_filter. fold (entries_with n i). rewrite (entries_matches n J i M). reflexivity.
Qed.
Lemma zmax_max l : l <> [] -> exists m, zmax l = Ok m /\ In m l /\ forall x, In x l -> (x <= m)%Z.
Proof.
  destruct l as [|a l]; [congruence|]. intros _. exists (fold_left Z.max l a). split; [reflexivity|]. split; [|apply (zmax_ge (a :: l)); reflexivity].
  revert a. induction l as [|b l IH]; intro a; cbn [fold_left]; [simpl; auto|]. destruct (Z.max_spec a b) as [[_ ->]|[_ ->]]; destruct (IH b) as [K|K], (IH a) as [K'|K']; simpl; auto.
Qed.
Lemma list_max_ge l x : In x l -> (x <= list_max l)%nat.
Proof. intro I. assert (H := proj1 (list_max_le l (list_max l)) (Nat.le_refl _)). rewrite Forall_forall in H. auto. Qed.
Lemma list_max_in l : l <> [] -> In (list_max l) l.
Proof.
  induction l as [|a l IH]; [congruence|]. intros _. change (list_max (a :: l)) with (Nat.max a (list_max l)). destruct l as [|b l]; [simpl; left; lia|]. destruct (Nat.max_spec a (list_max (b :: l))) as [[_ ->]|[_ ->]]; [right; apply IH; discriminate|left; auto].
Qed.
Lemma count_max_matches n J : ndindex zs <> [] -> matches n J -> count_max n = Ok (longest J).
Proof.
  intros NE [S H]. unfold count_max. destruct (zmax_max (ravel n)) as (m & E & I & U); [unfold ravel; rewrite S; destruct (ndindex zs); [congruence|discriminate]|]. rewrite E. cbv beta iota delta [rbind].
  unfold ravel in I, U. rewrite S in I, U. apply in_map_iff in I. destruct I as (r & Q & I). assert (Ir := I). apply in_ndindex in I. rewrite H in Q by auto.
  replace (m <? 0)%Z with false by (symmetry; apply Z.ltb_ge; lia). f_equal. unfold longest. apply Nat.le_antisymm.
  - replace (Z.to_nat m) with (List.length (J r)) by lia. apply list_max_ge. apply in_map_iff. eauto.
  - assert (K := list_max_in (map (fun r => List.length (J r)) (ndindex zs)) ltac:(destruct (ndindex zs); [congruence|discriminate])). apply in_map_iff in K. destruct K as (r' & <- & I'). specialize (U (dat n r') (in_map _ _ _ I')). rewrite H in U by (apply in_ndindex; auto). lia.
Qed.
Lemma longest_ge J r : inb zs r -> (List.length (J r) <= longest J)%nat.
Proof. intro I. apply list_max_ge. apply in_map_iff. exists r. split; auto. apply in_ndindex; auto. Qed.
Lemma with_jumps_in J i r : In r (with_jumps zs J i) <-> inb zs r /\ List.length (J r) = i.
Proof. unfold with_jumps. rewrite filter_In, in_ndindex, Nat.eqb_eq. tauto. Qed.
Lemma with_jumps_nodup J i : NoDup (with_jumps zs J i).
Proof. apply NoDup_filter, NoDup_ndindex. Qed.
Lemma nth_error_position l k r : NoDup l -> nth_error l k = Some r -> position r l = Some k.
Proof. intros N E. rewrite <- (nth_error_nth l k [] E). apply position_nth; auto. apply nth_error_Some. congruence. Qed.
Lemma row_nth (y : arr R) k j : (j < last (shp y) 0)%nat -> nth j (row y [k]) 0 = dat y [k; j].
Proof.
  intro L. unfold row. erewrite nth_error_nth; [reflexivity|]. erewrite map_nth_error; [reflexivity|]. rewrite (nth_error_nth' _ 0%nat) by (rewrite seq_length; auto). rewrite seq_nth by auto. reflexivity.
Qed.
Lemma recorded_sizes J ys : recorded zs J ys -> map last_size ys = present J (longest J).
Proof.
  unfold recorded. fold (longest J). fold (present J (longest J)). induction 1 as [|i y l l' [S _] F IH]; auto. cbn [map]. rewrite IH. unfold last_size. rewrite S. reflexivity.
Qed.
Lemma recorded_in J ys y : recorded zs J ys -> In y ys -> shp y = [List.length (with_jumps zs J (last_size y)); last_size y] /\ (1 <= last_size y)%nat /\
  forall k r, nth_error (with_jumps zs J (last_size y)) k = Some r -> row y [k] = J r.
Proof.
  unfold recorded. intros F I. apply In_nth_error in I. destruct I as [k E].
  assert (X : exists i, In i (filter (fun i => negb (List.length (with_jumps zs J i) =? 0)%nat) (seq 1 (list_max (map (fun r => List.length (J r)) (ndindex zs))))) /\ shp y = [List.length (with_jumps zs J i); i] /\ forall k r, nth_error (with_jumps zs J i) k = Some r -> row y [k] = J r).
  { revert k E. induction F as [|i y' l l' H F IH]; intros [|k] E; try discriminate; simpl in E.
    - injection E as ->. exists i. simpl. tauto.
    - destruct (IH k E) as (i' & I & K). exists i'. simpl. tauto. }
  destruct X as (i & I & S & H). assert (Q : last_size y = i) by (unfold last_size; rewrite S; reflexivity). rewrite Q. apply filter_In in I. destruct I as [I _]. apply in_seq in I. repeat split; auto; lia.
Qed.
(** entries with jumps are found in exactly the array of their number *)
Lemma find_size (ys : list (arr R)) i : NoDup (map last_size ys) -> forall y, In y ys -> last_size y = i -> find (fun y => (Z.of_nat i =? Z.of_nat (last_size y))%Z) (rev ys) = Some y.
Proof.
  intros N y I E. destruct (find (fun y => (Z.of_nat i =? Z.of_nat (last_size y))%Z) (rev ys)) as [y'|] eqn:F.
  - apply find_some in F. destruct F as [I' Q]. apply Z.eqb_eq in Q. apply in_rev in I'. f_equal. assert (Q' : last_size y' = last_size y) by lia. clear - N I I' Q'. induction ys as [|a l IH]; [destruct I|]. inversion N as [|? ? NI N']; subst.
    destruct I as [->|I], I' as [->|I']; auto; exfalso; apply NI; [rewrite <- Q'|rewrite Q']; apply in_map; auto.
  - exfalso. assert (K := find_none _ _ F y ltac:(apply in_rev; rewrite rev_involutive; auto)). cbv beta in K. apply Z.eqb_neq in K. lia.
Qed.
Lemma decode_recorded n J ys : ndindex zs <> [] -> matches n J -> recorded zs J ys -> exists yy, decode_y n ys = Ok yy /\ padded (longest J) J yy.
Proof.
  intros NE M Rec. unfold decode_y. rewrite (count_max_matches n J NE M). cbv beta iota delta [rbind]. rewrite (present_matches n J _ M), (recorded_sizes J ys Rec).
  assert (F : forallb (fun y : arr R => if list_eq_dec Nat.eq_dec (shp y) [List.length (entries_with n (last_size y)); last_size y] then true else false) ys = true).
  { apply forallb_forall. intros y I. rewrite (entries_matches n J _ M). destruct (recorded_in J ys y Rec I) as (-> & _). destruct (list_eq_dec _ _ _); auto. }
  rewrite F. destruct (list_eq_dec Nat.eq_dec (present J (longest J)) (present J (longest J))) as [_|]; [|congruence]. eexists. split; [reflexivity|]. split; [cbn [shp]; destruct M as [-> _]; reflexivity|].
  intros r j I L. cbn [dat]. rewrite removelast_last, last_last. destruct M as [Sn Hn]. rewrite Hn by auto.
  assert (ND : NoDup (map last_size ys)) by (rewrite (recorded_sizes J ys Rec); apply NoDup_filter, seq_NoDup).
  destruct (Nat.eq_dec (List.length (J r)) 0) as [Z0|NZ].
  - destruct (find _ _) as [y|] eqn:Fi.
    + exfalso. apply find_some in Fi. destruct Fi as [Iy Q]. apply in_rev in Iy. apply Z.eqb_eq in Q. destruct (recorded_in J ys y Rec Iy) as (_ & P & _). lia.
    + destruct (J r); [destruct j; reflexivity|discriminate].
  - assert (Ip : In (List.length (J r)) (present J (longest J))).
    { apply filter_In. split; [apply in_seq; pose proof (longest_ge J r I); lia|]. apply negb_true_iff, Nat.eqb_neq. assert (W : In r (with_jumps zs J (List.length (J r)))) by (apply with_jumps_in; auto). destruct (with_jumps _ _ _); [destruct W|discriminate]. }
    rewrite <- (recorded_sizes J ys Rec) in Ip. apply in_map_iff in Ip. destruct Ip as (y & Ey & Iy). rewrite (find_size ys _ ND y Iy Ey). destruct (recorded_in J ys y Rec Iy) as (Sy & _ & Ry).
    rewrite (entries_matches n J _ (conj Sn Hn)). assert (W : In r (with_jumps zs J (last_size y))) by (apply with_jumps_in; auto). apply In_nth_error in W. destruct W as [k W]. rewrite (nth_error_position _ _ _ (with_jumps_nodup J _) W).
    destruct (Nat.ltb_spec j (last_size y)) as [Lj|Lj].
    + rewrite <- (Ry k r W). symmetry. apply row_nth. exact Lj.
    + symmetry. apply nth_overflow. lia.
Qed.
Lemma encode_recorded w n J yy ys : ndindex zs <> [] -> matches n J -> (longest J <= w)%nat -> padded w J yy -> encode_y n yy = Ok ys -> recorded zs J ys.
Proof.
  intros NE M L [Sy Hy] E. unfold encode_y in E. rewrite (count_max_matches n J NE M) in E. cbv beta iota delta [rbind] in E. destruct (_ =? _)%nat in E; [|discriminate]. destruct (forallb _ _) in E; [|discriminate]. injection E as <-.
  rewrite (present_matches n J _ M). unfold recorded. fold (longest J). fold (present J (longest J)).
  assert (P : forall i, In i (present J (longest J)) -> (i <= w)%nat) by (intros i I; apply filter_In in I; destruct I as [I _]; apply in_seq in I; lia).
  induction (present J (longest J)) as [|i l IH]; cbn [map]; constructor; [|apply IH; intros; apply P; simpl; auto]. rewrite (entries_matches n J i M). split; [reflexivity|]. intros k r K. unfold row. cbn [shp last dat app nth].
  assert (W : In r (with_jumps zs J i)) by (eapply nth_error_In; eauto). apply with_jumps_in in W. destruct W as [I W]. rewrite (nth_error_nth _ _ [] K).
  transitivity (map (fun j => nth j (J r) 0) (seq 0 (List.length (J r)))).
  - rewrite W. apply map_ext_in. intros j Ij. apply in_seq in Ij. apply Hy; auto. pose proof (P i (or_introl eq_refl)). lia.
  - clear. induction (J r) as [|a l IH]; auto. cbn [List.length seq map nth]. rewrite <- seq_shift, map_map. cbn [nth]. rewrite IH. reflexivity.
Qed.
Lemma veqb_refl_R (x : R) : veqb x x = true.
Proof. apply veqb_R; auto. Qed.
Lemma encode_succeeds w n J yy : ndindex zs <> [] -> matches n J -> (longest J <= w)%nat -> padded w J yy -> (forall r, inb zs r -> List.Forall (fun x => x <> 0) (J r)) -> exists ys, encode_y n yy = Ok ys.
Proof.
  intros NE M L [Sy Hy] NZ. unfold encode_y. rewrite (count_max_matches n J NE M). cbv beta iota delta [rbind]. rewrite Sy, removelast_last.
  assert (Q : map (nonzeros yy) (ndindex zs) = map (fun r => List.length (J r)) (ndindex zs)).
  { apply map_ext_in. intros r I. apply in_ndindex in I. unfold nonzeros. rewrite Sy, last_last. pose proof (longest_ge J r I) as Lr.
    replace w with (List.length (J r) + (w - List.length (J r)))%nat at 1 by lia. rewrite seq_app, filter_app, app_length. cbn [plus].
    assert (E1 : filter (fun j => negb (veqb (dat yy (r ++ [j])) nzero)) (seq 0 (List.length (J r))) = seq 0 (List.length (J r))).
    { rewrite (filter_ext_in _ (fun _ => true)); [clear; induction (seq 0 (List.length (J r))); simpl; congruence|]. intros j Ij. apply in_seq in Ij. rewrite Hy by (auto || lia). apply negb_true_iff. apply not_true_iff_false. rewrite veqb_R. specialize (NZ r I). rewrite Forall_forall in NZ. apply NZ. apply nth_In. lia. }
    assert (E2 : filter (fun j => negb (veqb (dat yy (r ++ [j])) nzero)) (seq (List.length (J r)) (w - List.length (J r))) = []).
    { rewrite (filter_ext_in _ (fun _ => false)); [clear; induction (seq (List.length (J r)) (w - List.length (J r))); simpl; auto|]. intros j Ij. apply in_seq in Ij. rewrite Hy by (auto || lia). rewrite nth_overflow by lia. rewrite veqb_refl_R. reflexivity. }
    rewrite E1, E2, seq_length. simpl. lia. }
  rewrite Q. fold (longest J). rewrite Nat.eqb_refl. rewrite (present_matches n J _ M).
  assert (F : forallb (fun i => forallb (fun r => forallb (fun j => veqb (dat yy (r ++ [j])) nzero) (seq i (last (zs ++ [w]) 0 - i)%nat)) (entries_with n i)) (present J (longest J)) = true).
  { apply forallb_forall. intros i Ii. rewrite (entries_matches n J i M). apply forallb_forall. intros r Ir. apply with_jumps_in in Ir. destruct Ir as [I E]. apply forallb_forall. intros j Ij. rewrite last_last in Ij. apply in_seq in Ij. rewrite Hy by (auto || lia). rewrite nth_overflow by lia. apply veqb_refl_R. }
  rewrite F. eauto.
Qed.
(** splitting *)
Definition firsts (k : arr Z) (J : list nat -> list R) : list nat -> list R := fun r => firstn (Z.to_nat (dat k r)) (J r).
Definition rests (k : arr Z) (J : list nat -> list R) : list nat -> list R := fun r => skipn (Z.to_nat (dat k r)) (J r).
Definition within (k : arr Z) (J : list nat -> list R) : Prop := forall r, inb zs r -> (0 <= dat k r <= Z.of_nat (List.length (J r)))%Z.
Lemma nth_firstn_R k (l : list R) : forall j, nth j (firstn k l) 0 = if (j <? k)%nat then nth j l 0 else 0.
Proof.
  revert l. induction k as [|k IH]; intros l j; [simpl; destruct j; reflexivity|]. destruct l as [|a l]; [rewrite firstn_nil; destruct (j <? S k)%nat; destruct j; reflexivity|]. destruct j as [|j]; [reflexivity|]. cbn [firstn nth]. rewrite IH. reflexivity.
Qed.
Lemma nth_skipn_R k (l : list R) : forall j, nth j (skipn k l) 0 = nth (k + j) l 0.
Proof. revert l. induction k as [|k IH]; intros l j; [reflexivity|]. destruct l as [|a l]; [rewrite skipn_nil; destruct j; reflexivity|]. cbn [skipn]. rewrite IH. reflexivity. Qed.
Lemma padded_first w k J yy : within k J -> padded w J yy -> padded w (firsts k J) (split_first k yy).
Proof.
  intros W [S H]. split; [exact S|]. intros r j I L. unfold split_first, firsts. cbn [dat]. rewrite removelast_last, last_last, nth_firstn_R. specialize (W r I). replace (dat k r <? 0)%Z with false by (symmetry; apply Z.ltb_ge; lia). destruct (_ <? _)%nat; auto.
Qed.
Lemma padded_second w k J yy : within k J -> (longest J <= w)%nat -> padded w J yy -> padded w (rests k J) (split_second k w yy).
Proof.
  intros W Lw [S H]. split; [exact S|]. intros r j I L. unfold split_second, rests. cbn [dat]. rewrite removelast_last, last_last, nth_skipn_R. specialize (W r I). replace (dat k r <? 0)%Z with false by (symmetry; apply Z.ltb_ge; lia). pose proof (longest_ge J r I).
  destruct (Nat.ltb_spec j (w - Z.to_nat (dat k r))) as [Q|Q]; [rewrite H by (auto || lia); f_equal; lia|]. symmetry. apply nth_overflow. lia.
Qed.
Lemma nsum_padded w J yy r : padded w J yy -> (longest J <= w)%nat -> inb zs r -> nsum (row yy r) = total (J r).
Proof.
  intros [S H] L I. rewrite nsum_R. unfold row. rewrite S, last_last. rewrite (map_ext_in _ (fun j => nth j (J r) 0)) by (intros j Ij; apply in_seq in Ij; apply H; auto; lia). pose proof (longest_ge J r I) as Lr. assert (L' : (List.length (J r) <= w)%nat) by lia. clear - L'. revert w L'.
  induction (J r) as [|a l IH]; intros w L'.
  - assert (K : forall s, total (map (fun j => nth j [] 0) (seq s w)) = 0); [|apply K]. induction w as [|w IH]; intro s; [reflexivity|]. cbn [seq map total fold_right]. change (fold_right Rplus 0) with total. rewrite IH by (simpl; lia). destruct s; simpl; lra.
  - destruct w as [|w]; [simpl in L'; lia|]. cbn [seq map nth total fold_right]. change (fold_right Rplus 0) with total. rewrite <- seq_shift, map_map. cbn [nth]. rewrite IH by (simpl in L'; lia). reflexivity.
Qed.
Lemma longest_le J J' : (forall r, inb zs r -> (List.length (J' r) <= List.length (J r))%nat) -> (longest J' <= longest J)%nat.
Proof.
  intro H. unfold longest at 1. apply list_max_le. apply Forall_forall. intros x I. apply in_map_iff in I. destruct I as (r & <- & I). apply in_ndindex in I. specialize (H r I). pose proof (longest_ge J r I). lia.
Qed.
Lemma longest_first k J : (longest (firsts k J) <= longest J)%nat.
Proof. apply longest_le. intros r _. unfold firsts. rewrite firstn_length. lia. Qed.
Lemma longest_rest k J : (longest (rests k J) <= longest J)%nat.
Proof. apply longest_le. intros r _. unfold rests. rewrite skipn_length. lia. Qed.
Lemma matches_first k J : shp k = zs -> within k J -> matches k (firsts k J).
Proof. intros S W. split; auto. intros r I. specialize (W r I). unfold firsts. rewrite firstn_length. lia. Qed.
Lemma recorded_ext J J' ys : (forall r, inb zs r -> J r = J' r) -> recorded zs J ys -> recorded zs J' ys.
Proof.
  intros H. unfold recorded. assert (W : forall i, with_jumps zs J' i = with_jumps zs J i) by (intro i; unfold with_jumps; apply filter_ext_nd; intros r I; rewrite H; auto).
  assert (Q : map (fun r => List.length (J' r)) (ndindex zs) = map (fun r => List.length (J r)) (ndindex zs)) by (apply map_ext_in; intros r I; apply in_ndindex in I; rewrite H; auto). rewrite Q.
  assert (Q2 : forall l, filter (fun i => negb (List.length (with_jumps zs J' i) =? 0)%nat) l = filter (fun i => negb (List.length (with_jumps zs J i) =? 0)%nat) l) by (intro l; apply filter_ext; intro i; rewrite W; reflexivity). rewrite Q2. clear Q Q2.
  induction 1 as [|i y l l' [S K] F IH]; constructor; auto. rewrite W. split; auto. intros k r E. rewrite <- H; [apply K; auto|]. assert (I : In r (with_jumps zs J i)) by (eapply nth_error_In; eauto). apply with_jumps_in in I. tauto.
Qed.
End Records.
