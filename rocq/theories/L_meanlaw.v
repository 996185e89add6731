(** The generator of L_law8 draws normal variates with the means of sums of products. *)
From Coq Require Import List Arith Bool ZArith Reals Lra Lia FunctionalExtensionality.
From Coquelicot Require Import Coquelicot.
From Verif Require Import Base BaseNum BaseArr BaseNd BaseIdx M_process M_source S_mc S_process S_source L_nd L_process L_process2 L_source M_rv S_rv L_rv M_analytical S_analytical S_pdf
  L_mix S_euler S_law P_chf L_law L_law2 L_law3 L_law8 S_gval L_gval L_gval2 S_mean.
Import ListNotations.
Local Open Scope R_scope.

Section Sums.
Variable M : nat -> (R -> R) -> R -> Prop.
Hypothesis ML : forall c, linear_mean (M c).
Hypothesis MU : forall c, unique_mean (M c).
Lemma iter_up n f v k : dep n f -> iter M n f v -> iter M (k + n) f v.
Proof using ML.
  intros D H. induction k as [|k IH]; [exact H|]. cbn [Nat.add iter]. exists (fun _ => v). split.
  - intro x. eapply iter_ext; [|exact IH]. intro h. cbv beta. apply D. intros c Hc. unfold upd. destruct (Nat.eqb_spec c (k + n)); [lia|reflexivity].
  - destruct (ML (k + n)) as (_ & _ & _ & C). apply C.
Qed.
Lemma iter_plus n : forall f h v u, iter M n f v -> iter M n h u -> iter M n (fun x => f x + h x) (v + u).
Proof using ML.
  induction n as [|n IH]; intros f h v u H K.
  - cbn in *. rewrite H, K. reflexivity.
  - destruct H as (phi & H & Hv). destruct K as (psi & K & Kv). exists (fun x => phi x + psi x). split; [intro x; apply (IH _ _ _ _ (H x) (K x))|].
    destruct (ML n) as (_ & P & _). apply P; auto.
Qed.
Lemma iter_scal n c : forall f v, iter M n f v -> iter M n (fun x => c * f x) (c * v).
Proof using ML.
  induction n as [|n IH]; intros f v H.
  - cbn in *. rewrite H. reflexivity.
  - destruct H as (phi & H & Hv). exists (fun x => c * phi x). split; [intro x; apply (IH _ _ (H x))|]. destruct (ML n) as (_ & _ & S & _). apply S; auto.
Qed.
Lemma mean_of_plus f h v u : mean_of M f v -> mean_of M h u -> mean_of M (fun x => f x + h x) (v + u).
Proof using ML.
  intros (n & D & H) (m & D' & H'). exists (m + n)%nat. split.
  - intros x y E. rewrite (D x y), (D' x y); [reflexivity|intros c Hc; apply E; lia|intros c Hc; apply E; lia].
  - apply iter_plus; [apply iter_up; auto|]. rewrite Nat.add_comm. apply iter_up; auto.
Qed.
Lemma mean_of_scal c f v : mean_of M f v -> mean_of M (fun x => c * f x) (c * v).
Proof using ML. intros (n & D & H). exists n. split; [intros x y E; rewrite (D x y E); reflexivity|apply iter_scal; auto]. Qed.
Lemma mean_of_sum (f : nat -> head -> R) v K : (forall k, (k < K)%nat -> mean_of M (f k) (v k)) -> mean_of M (fun x => rsum (fun k => f k x) (seq 0 K)) (rsum v (seq 0 K)).
Proof using ML.
  induction K as [|K IH]; intro H.
  - exact (mean_of_const M 0).
  - rewrite rsum_seq_S. eapply mean_of_ext; [intro x; symmetry; apply rsum_seq_S|]. apply mean_of_plus; [apply IH; intros; apply H; lia|apply H; lia].
Qed.
(** products of functions of different variates *)
Lemma iter_rprod (F : nat -> R -> R) (m : nat -> R) n : (forall c, M c (F c) (m c)) -> iter M n (fun h => rprod (fun c => F c (h c)) (rev (seq 0 n))) (rprod m (rev (seq 0 n))).
Proof using ML.
  intro H. induction n as [|n IH]; [reflexivity|]. rewrite seq_S, rev_app_distr. cbn [Nat.add rev app].
  exists (fun x => F n x * rprod m (rev (seq 0 n))). split.
  - intro x. apply (iter_scal n (F n x)) in IH. eapply iter_ext; [|exact IH]. intro h. unfold rprod. cbn [map fold_right]. cbv beta. unfold upd at 1. rewrite Nat.eqb_refl.
    f_equal. f_equal. apply map_ext_in. intros c Hc. apply in_rev, in_seq in Hc. unfold upd. destruct (Nat.eqb_spec c n); [lia|reflexivity].
  - unfold rprod. cbn [map fold_right]. fold (rprod m (rev (seq 0 n))). destruct (ML n) as (E & _ & S & _). assert (X := S _ _ (rprod m (rev (seq 0 n))) (H n)). replace (m n * rprod m (rev (seq 0 n))) with (rprod m (rev (seq 0 n)) * m n) by ring.
    eapply E; [|exact X]. intro x. cbv beta. ring.
Qed.
End Sums.

Lemma rprod_app {A} (f : A -> R) l l' : rprod f (l ++ l') = rprod f l * rprod f l'.
Proof. unfold rprod. induction l as [|a l IH]; cbn [app map fold_right]; [ring|]. rewrite IH. ring. Qed.
Lemma rprod_rev {A} (f : A -> R) l : rprod f (rev l) = rprod f l.
Proof. induction l as [|a l IH]; [reflexivity|]. cbn [rev]. rewrite rprod_app, IH. unfold rprod. cbn [map fold_right]. ring. Qed.
Lemma rprod_cprod {A} (f : A -> R) l : RtoC (rprod f l) = cprod (fun a => RtoC (f a)) l.
Proof. unfold rprod, cprod. induction l as [|a l IH]; [reflexivity|]. cbn [map fold_right]. rewrite RtoC_mult, IH. reflexivity. Qed.
(** the factors at the spots of entries *)
Lemma rprod_spots K s (v : nat -> list nat -> R) : (0 < K)%nat -> let l := ndindex s in let N := length l in
  rprod (fun c => if ((c mod K =? 0) && (c / K <? N))%nat then v c (nth (c / K) l []) else 1) (seq 0 (K * N)) = rprod (fun ix => v (K * spot l ix)%nat ix) l.
Proof.
  intros HK l N. apply RtoC_inj. rewrite !rprod_cprod. rewrite cprod_blocks, (cprod_nth _ [] l). fold N. apply cprod_ext. intros p Hp. apply in_seq in Hp. rewrite spot_nth by (try apply NoDup_ndindex; fold N; lia).
  transitivity (cprod (fun k => if (k =? 0)%nat then RtoC (v (K * p)%nat (nth p l [])) else 1%C) (seq 0 K)); [|apply cprod_single; exact HK].
  apply cprod_ext. intros k Hk. apply in_seq in Hk.
  assert (D1 : ((K * p + k) / K = p)%nat) by (symmetry; apply Nat.div_unique with k; lia). assert (D2 : ((K * p + k) mod K = k)%nat) by (symmetry; apply Nat.mod_unique with p; lia).
  rewrite D1, D2. destruct (Nat.ltb_spec p N); [|lia]. rewrite andb_true_r. destruct (Nat.eqb_spec k 0) as [->|]; [rewrite Nat.add_0_r|]; reflexivity.
Qed.
Lemma the_normal_sums ls s : normal_sums (the_law ls) (the_normal ls) s.
Proof.
  intros d Phi J z F m H Hm. set (K := (3 + length ls)%nat). set (l := ndindex s) in *. set (N := length l). set (M := coord_mean ls).
  assert (ML : forall c, linear_mean (M c)) by (intro c; apply kind_linear). assert (MU : forall c, unique_mean (M c)) by (intro c; apply kind_unique).
  unfold the_law. apply gmean_is; [exact ML|exact MU|].
  apply mean_of_ext with (f := fun h : head => rsum (fun k => z k * rprod (fun ix => F k ix (h (K * spot l ix)%nat)) l) (seq 0 J)).
  { intro h. symmetry. etransitivity; [|apply (H (mkArr s (fun ix => h (K * spot l ix)%nat)) eq_refl)]. apply gmean_law; [exact ML|exact MU|]. intro g. unfold the_normal, gdraw. cbn [gcons]. fold K l.
    replace (fun ix => h (K * spot l ix + 0)%nat) with (fun ix => h (K * spot l ix)%nat); [reflexivity|]. apply functional_extensionality. intro ix. rewrite Nat.add_0_r. reflexivity. }
  apply (mean_of_sum M ML (fun k h => z k * rprod (fun ix => F k ix (h (K * spot l ix)%nat)) l) (fun k => z k * rprod (m k) l)). intros k Hk. apply mean_of_scal; [exact ML|].
  set (Fc := fun c x => if ((c mod K =? 0) && (c / K <? N))%nat then F k (nth (c / K) l []) x else 1).
  set (mc := fun c => if ((c mod K =? 0) && (c / K <? N))%nat then m k (nth (c / K) l []) else 1).
  assert (HF : forall c, M c (Fc c) (mc c)).
  { intro c. unfold Fc, mc. destruct (Nat.eqb_spec (c mod K) 0) as [E|E]; [|cbn [andb]; apply (ML c)].
    destruct (Nat.ltb_spec (c/K) N) as [Q|Q]; [|cbn [andb]; apply (ML c)]. cbn [andb]. unfold M, coord_mean. fold K. rewrite E. cbn [kind_mean]. apply Hm; [exact Hk|]. apply in_ndindex, nth_In. exact Q. }
  assert (P1 : forall h : head, rprod (fun c => Fc c (h c)) (seq 0 (K * N)) = rprod (fun ix => F k ix (h (K * spot l ix)%nat)) l).
  { intro h. exact (rprod_spots K s (fun c ix => F k ix (h c)) ltac:(unfold K; lia)). }
  assert (P2 : rprod mc (seq 0 (K * N)) = rprod (m k) l) by exact (rprod_spots K s (fun _ ix => m k ix) ltac:(unfold K; lia)).
  exists (K * N)%nat. split.
  - intros h h' E. rewrite <- !P1. unfold rprod. f_equal. apply map_ext_in. intros c Hc. apply in_seq in Hc. rewrite E by lia. reflexivity.
  - rewrite <- P2, <- rprod_rev. eapply iter_ext; [|apply (iter_rprod M ML Fc mc (K * N) HF)]. intro h. cbv beta. rewrite rprod_rev. apply P1.
Qed.
