(** A generator that draws pairs of correlated normal variates, and the joint law of two entries of arrays drawn by the reference
    generators. *)
From Coq Require Import List Arith Bool ZArith Reals Lra Lia.
From Coquelicot Require Import Coquelicot.
From Verif Require Import Base BaseNum BaseArr BaseNd BaseIdx M_source S_source L_nd L_pack L_process M_rv S_rv M_analytical S_law P_chf L_law L_law2 L_law3 L_law8 S_heslaw.
Import ListNotations.
Local Open Scope R_scope.

(** *** the place of an index *)
Lemma spot_cons a l ix : spot (map (cons a) l) (a :: ix) = spot l ix.
Proof. induction l as [|jx l IH]; [reflexivity|]. cbn [map spot]. rewrite IH. destruct (list_eq_dec Nat.eq_dec jx ix) as [E1|Q], (list_eq_dec Nat.eq_dec (a :: jx) (a :: ix)) as [E|E]; congruence. Qed.
Lemma spot_skip l m ix : ~ In ix l -> spot (l ++ m)%list ix = (length l + spot m ix)%nat.
Proof.
  induction l as [|jx l IH]; [reflexivity|]. intro H. cbn [app spot length]. destruct (list_eq_dec Nat.eq_dec jx ix) as [->|Q]; [destruct H; left; reflexivity|]. rewrite IH; [reflexivity|]. intro K. apply H. right. exact K.
Qed.
Lemma spot_first l m ix : In ix l -> spot (l ++ m)%list ix = spot l ix.
Proof.
  induction l as [|jx l IH]; [easy|]. intro H. cbn [app spot]. destruct (list_eq_dec Nat.eq_dec jx ix) as [->|Q]; [reflexivity|]. rewrite IH; [reflexivity|]. destruct H; [contradiction|exact H].
Qed.
Lemma spot_flat s a ix : inb s ix -> forall n b, (b <= a < b + n)%nat ->
  spot (flat_map (fun i => map (cons i) (ndindex s)) (seq b n)) (a :: ix) = ((a - b)*length (ndindex s) + spot (ndindex s) ix)%nat.
Proof.
  intros HI. induction n as [|n IH]; intros b H; [lia|]. cbn [seq flat_map]. destruct (Nat.eq_dec a b) as [->|Q].
  - rewrite spot_first by (apply in_map, in_ndindex; exact HI). rewrite spot_cons, Nat.sub_diag. reflexivity.
  - rewrite spot_skip. { rewrite IH by lia. rewrite map_length. replace (a - b)%nat with (S (a - S b)) by lia. lia. }
    intro K. apply in_map_iff in K. destruct K as (y & E & _). congruence.
Qed.
Lemma spot_lt v : forall q M s i j ix, inb v q -> (i < j < M)%nat -> inb s ix ->
  (spot (ndindex (v ++ M :: s)) (q ++ i :: ix) < spot (ndindex (v ++ M :: s)) (q ++ j :: ix))%nat.
Proof.
  induction v as [|d v IH]; intros q M s i j ix HQ HIJ HI.
  - inversion HQ; subst. cbn [app ndindex]. rewrite !spot_flat by (auto; lia). rewrite !Nat.sub_0_r.
    destruct (spot_in (ndindex s) ix) as [A _]; [apply in_ndindex; exact HI|]. nia.
  - destruct q as [|q0 l']; [inversion HQ|]. inversion HQ; subst. cbn [app ndindex]. assert (K : forall m, (m < M)%nat -> inb (v ++ M :: s) (l' ++ m :: ix)) by (intros; apply inb_app; auto; constructor; auto).
    rewrite !spot_flat by (try apply K; lia). rewrite Nat.sub_0_r. specialize (IH l' M s i j ix). apply Nat.add_lt_mono_l. apply IH; auto.
Qed.

(** *** means over two coordinates *)
Section Iter.
Variable M : nat -> (R -> R) -> R -> Prop.
Hypothesis ML : forall c, linear_mean (M c).
Hypothesis MU : forall c, unique_mean (M c).
Lemma iter_const n v : iter M n (fun _ => v) v.
Proof using ML. induction n as [|n IH]; [reflexivity|]. exists (fun _ => v). split; [intro x; exact IH|]. apply ML. Qed.
Lemma iter_one f a v n : (a < n)%nat -> M a f v -> iter M n (fun h => f (h a)) v.
Proof using ML.
  intros H HM. induction n as [|n IH]; [lia|]. destruct (Nat.eq_dec a n) as [->|Q].
  - exists f. split; [|exact HM]. intro x. apply (iter_ext M n (fun _ => f x)); [intro h; unfold upd; rewrite Nat.eqb_refl; reflexivity|apply iter_const].
  - exists (fun _ => v). split; [|apply ML]. intro x. apply (iter_ext M n (fun h => f (h a))); [intro h; unfold upd; destruct (Nat.eqb_spec a n); [lia|reflexivity]|apply IH; lia].
Qed.
Lemma iter_two f a b W v n : (a < b < n)%nat -> (forall z, M a (fun z' => f z' z) (W z)) -> M b W v -> iter M n (fun h => f (h a) (h b)) v.
Proof using ML.
  intros H HW HM. induction n as [|n IH]; [lia|]. destruct (Nat.eq_dec b n) as [->|Q].
  - exists W. split; [|exact HM]. intro x. apply (iter_ext M n (fun h => f (h a) x)).
    + intro h. unfold upd. rewrite Nat.eqb_refl. destruct (Nat.eqb_spec a n); [lia|reflexivity].
    + apply (iter_one (fun z' => f z' x)); [lia|apply HW].
  - exists (fun _ => v). split; [|apply ML]. intro x. apply (iter_ext M n (fun h => f (h a) (h b))); [|apply IH; lia].
    intro h. unfold upd. destruct (Nat.eqb_spec a n); [lia|]. destruct (Nat.eqb_spec b n); [lia|reflexivity].
Qed.
(** the draw of two coordinates of the first head *)
Lemma gmean_two d (Phi : R -> R -> gen -> R) V (f : R -> R -> R * R) a b W v : (a < b)%nat -> (forall x y, gmean M d (Phi x y) = V x y) ->
  (forall z, M a (fun z' => V (fst (f z' z)) (snd (f z' z))) (W z)) -> M b W v ->
  gmean M (S d) (fun g => Phi (fst (f (g 0%nat a) (g 0%nat b))) (snd (f (g 0%nat a) (g 0%nat b))) (gtail g)) = v.
Proof using ML MU.
  intros H HP HW HM. apply gmean_is; auto. apply (mean_of_ext M (fun h => V (fst (f (h a) (h b))) (snd (f (h a) (h b))))).
  - intro h. rewrite <- HP. reflexivity.
  - exists (S b). split; [intros h h' E; rewrite (E a), (E b) by lia; reflexivity|]. apply (iter_two (fun x y => V (fst (f x y)) (snd (f x y))) a b W v); auto.
Qed.
End Iter.

(** *** the generators *)
Section Gen.
Variable ls : list R.
Let K := (3 + length ls)%nat.
Lemma coord_normal p : coord_mean ls (K*p + 0) = mean_normal.
Proof. unfold coord_mean. fold K. replace ((K*p + 0) mod K)%nat with 0%nat; [reflexivity|]. apply Nat.mod_unique with p; unfold K; lia. Qed.
Lemma two_normals d (Phi : R -> R -> gen -> R) V (f : R -> R -> R * R) a b W v : (a < b)%nat -> (forall x y, the_law ls d (Phi x y) = V x y) ->
  (forall z, mean_normal (fun z' => V (fst (f z' z)) (snd (f z' z))) (W z)) -> mean_normal W v ->
  the_law ls (S d) (fun g => Phi (fst (f (g 0%nat (K*a + 0)%nat) (g 0%nat (K*b + 0)%nat))) (snd (f (g 0%nat (K*a + 0)%nat) (g 0%nat (K*b + 0)%nat))) (gtail g)) = v.
Proof.
  intros H HP HW HM. apply (gmean_two (coord_mean ls) (fun c => kind_linear ls _) (fun c => kind_unique ls _) d Phi V f (K*a + 0)%nat (K*b + 0)%nat W v).
  - unfold K. nia.
  - exact HP.
  - intro z. rewrite coord_normal. apply HW.
  - rewrite coord_normal. exact HM.
Qed.
Lemma the_pairs v M n : normal_pairs (the_law ls) (the_normal ls) v M n.
Proof.
  intros q i j p HQ HIJ Hp d Phi V e _ HP (W & HW & HM). unfold the_normal, gdraw. cbn [dat]. fold K.
  assert (LT := spot_lt v q M [n] i j [p] HQ HIJ ltac:(constructor; [exact Hp|constructor])).
  apply (two_normals d Phi V (fun x y => (x, y)) _ _ W e LT HP); [|exact HM]. intro z. cbn [fst snd]. apply (proj1 normal_linear (fun z' => V (0*z + sqrt (1 - 0*0)*z') z)); [|apply HW].
  intro z'. cbv beta. f_equal. replace (1 - 0*0) with 1 by ring. rewrite sqrt_1. ring.
Qed.
(** two correlated variates for each index; the first is computed from the second *)
Definition pair_mvnormal (cov : arr R) (s : list nat) (g : gen) : res (arr R) * gen :=
  match shp cov with
  | [2%nat; 2%nat] =>
    let r := dat cov [0; 1]%nat in
    match the_normal ls (s ++ [2%nat]) g with
    | (Ok a, g') => (Ok (mkArr (s ++ [2%nat]) (fun ix => match rev ix with
        | 0%nat :: q => r * dat a (rev q ++ [1%nat]) + sqrt (1 - r*r) * dat a (rev q ++ [0%nat])
        | _ => dat a ix end)), g')
    | (Err e, g') => (Err e, g')
    end
  | M :: _ => (Ok (mkArr (s ++ [M]) (fun _ => 0)), g)
  | [] => (Ok (mkArr s (fun _ => 0)), g)
  end.
Lemma pair_mvnormal_ok : mvnormal_ok pair_mvnormal.
Proof.
  intros M cov s g HS. unfold pair_mvnormal. rewrite HS. destruct M as [|[|[|M]]]; try (eexists _, _; split; reflexivity).
Qed.
Lemma pair_pairs c s : mvnormal_pairs (the_law ls) pair_mvnormal 2 c s.
Proof.
  intros cov SC HC q i j HQ HIJ d Phi V e _ HP (W & HW & HM). assert (i = 0 /\ j = 1)%nat as [-> ->] by lia. set (r := c 0%nat 1%nat) in *.
  assert (ER : dat cov [0; 1]%nat = r) by (apply HC; lia).
  assert (LT := spot_lt s q 2 [] 0 1 [] HQ ltac:(lia) ltac:(constructor)).
  unfold pair_mvnormal. rewrite SC, ER. unfold the_normal, gdraw. cbn [dat]. rewrite !rev_app_distr. cbn [rev app]. rewrite !rev_involutive. fold K.
  apply (two_normals d Phi V (fun x y => (r*y + sqrt (1 - r*r)*x, y)) _ _ W e LT HP HW HM).
Qed.
End Gen.
