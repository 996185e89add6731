(** Lemmas on BaseNd. *)
From Coq Require Import List Arith Bool Lia ZArith Reals Lra FinFun.
From Verif Require Import Base BaseNum BaseArr BaseNd.
Import ListNotations.

Lemma in_ndindex s : forall ix, In ix (ndindex s) <-> inb s ix.
Proof.
  induction s as [|d s IH]; intro ix; simpl.
  - split; [intros [<-|[]]; constructor|intro H; inversion H; auto].
  - rewrite in_flat_map. split.
    + intros (i & Hi & H). apply in_map_iff in H. destruct H as (ix' & <- & H). apply in_seq in Hi. constructor; [lia|apply IH; auto].
    + intro H. inversion H; subst. exists x. split; [apply in_seq; lia|]. apply in_map. apply IH; auto.
Qed.
Lemma NoDup_map_cons {A} (i : A) l : NoDup l -> NoDup (map (cons i) l).
Proof.
  intro H. apply Injective_map_NoDup; auto. intros a b E. congruence.
Qed.
Lemma NoDup_app2 {A} (l1 l2 : list A) : NoDup l1 -> NoDup l2 -> (forall x, In x l1 -> ~ In x l2) -> NoDup (l1 ++ l2).
Proof.
  induction l1; intros N1 N2 D; simpl; auto. inversion N1; subst. constructor.
  - rewrite in_app_iff. intros [H|H]; [auto|]. apply (D a); simpl; auto.
  - apply IHl1; auto. intros x Hx. apply D. simpl; auto.
Qed.
Lemma NoDup_ndindex s : NoDup (ndindex s).
Proof.
  induction s as [|d s IH]; simpl; [repeat constructor; auto|].
  assert (G : forall l, NoDup l -> NoDup (flat_map (fun i => map (cons i) (ndindex s)) l)).
  { induction l as [|i l IHl]; intro N; simpl; [constructor|]. inversion N; subst. apply NoDup_app2; auto.
    - apply NoDup_map_cons; auto.
    - intros x Q1 Q2. apply in_map_iff in Q1. destruct Q1 as (y & <- & _). apply in_flat_map in Q2. destruct Q2 as (k & Hk & Q).
      apply in_map_iff in Q. destruct Q as (z & E & _). congruence. }
  apply G, seq_NoDup.
Qed.
Lemma ndindex_1 n : ndindex [n] = map (fun j => [j]) (seq 0 n).
Proof. unfold ndindex. induction (seq 0 n); simpl; auto. Qed.

Lemma in_prefix_app v : forall w ix, inb v ix -> in_prefix (v ++ w) ix = true.
Proof.
  induction v as [|d v IH]; intros w ix H; inversion H as [|x y l l' L F]; subst; simpl; [destruct w; auto|].
  apply Nat.ltb_lt in L. rewrite L. simpl. apply IH; auto.
Qed.
Lemma skipn_app_exact {A} (l1 l2 : list A) n : n = length l1 -> skipn n (l1 ++ l2) = l2.
Proof. intros ->. rewrite skipn_app, skipn_all, Nat.sub_diag. reflexivity. Qed.
Lemma sub_arr_prefix {V} (a : arr V) v w ix : shp a = v ++ w -> inb v ix -> sub_arr a ix = Ok (mkArr w (fun jx => dat a (ix ++ jx))).
Proof.
  intros S H. unfold sub_arr. rewrite S, in_prefix_app by auto. rewrite skipn_app_exact; auto. apply inb_length; auto.
Qed.
Lemma removelast_snoc {A} (l : list A) x : removelast (l ++ [x]) = l.
Proof. rewrite removelast_app by discriminate. simpl. apply app_nil_r. Qed.
Lemma last_snoc {A} (l : list A) x d : last (l ++ [x]) d = x.
Proof. apply last_last. Qed.
Lemma inb_snoc v n ix j : inb v ix -> (j < n)%nat -> inb (v ++ [n]) (ix ++ [j]).
Proof. intros H J. apply Forall2_app; auto. Qed.
Lemma inb_snoc_inv v n ix : inb (v ++ [n]) ix -> exists i j, ix = i ++ [j] /\ inb v i /\ (j < n)%nat.
Proof.
  intro H. apply Forall2_app_inv_r in H. destruct H as (i & t & H1 & H2 & ->). inversion H2 as [|x y l l' L F]; subst. inversion F; subst.
  exists i, x. auto.
Qed.
Lemma can_snoc v a b : (a = b \/ a = 1%nat) -> can (v ++ [a]) (v ++ [b]) = true.
Proof.
  intro H. unfold can. rewrite !rev_app_distr. simpl. rewrite canr_refl, andb_true_r.
  destruct H as [->| ->]; [rewrite Nat.eqb_refl; auto|simpl; apply orb_true_r].
Qed.
Lemma bidx_snoc v a ix j : bidx (v ++ [a]) (ix ++ [j]) = bidx v ix ++ [if Nat.eqb a 1 then 0%nat else j].
Proof. unfold bidx. rewrite !rev_app_distr. simpl. reflexivity. Qed.

Lemma firstn_app_exact {A} (l1 l2 : list A) n : n = length l1 -> firstn n (l1 ++ l2) = l1.
Proof. intros ->. rewrite firstn_app, firstn_all, Nat.sub_diag. simpl. apply app_nil_r. Qed.
Lemma norm_index_lt n i k : norm_index n i = Some k -> (k < n)%nat.
Proof.
  unfold norm_index. destruct ((0 <=? i) && (i <? Z.of_nat n))%Z eqn:E1.
  - intro H. injection H as <-. apply andb_true_iff in E1. destruct E1 as [A B]. apply Z.leb_le in A. apply Z.ltb_lt in B. lia.
  - destruct ((- Z.of_nat n <=? i) && (i <? 0))%Z eqn:E2; [|discriminate]. intro H. injection H as <-.
    apply andb_true_iff in E2. destruct E2 as [A B]. apply Z.leb_le in A. apply Z.ltb_lt in B. lia.
Qed.
Lemma nsum_R l : nsum (V := R) l = fold_right Rplus 0%R l.
Proof.
  unfold nsum. simpl. assert (G : forall a, fold_left Rplus l a = (a + fold_right Rplus 0 l)%R).
  { induction l as [|x l IH]; intro a; simpl; [lra|]. rewrite IH. lra. }
  rewrite G. lra.
Qed.
Lemma row_length {V} (a : arr V) ix : length (row a ix) = last (shp a) 0%nat.
Proof. unfold row. rewrite map_length, seq_length. reflexivity. Qed.
