(** Generators that follow the laws of S_law: streams of independent variates. *)
From Coq Require Import List Arith Bool ZArith Reals Lra Lia.
From Coquelicot Require Import Coquelicot.
From Verif Require Import Base BaseNum BaseArr BaseNd BaseIdx M_process M_source S_mc S_process S_source L_nd L_process L_process2 L_source M_rv S_rv L_rv M_analytical S_analytical S_pdf
  L_mix S_euler S_law P_chf L_law L_law2 L_law3.
Import ListNotations.
Local Open Scope R_scope.

(** *** the means of one variate *)
Definition unique_mean {A} (M : (A -> R) -> R -> Prop) : Prop := forall f v w, M f v -> M f w -> v = w.
Lemma normal_unique : unique_mean mean_normal.
Proof. intros f v w H K. unfold mean_normal in *. rewrite <- (is_RInt_gen_unique _ _ H). apply (is_RInt_gen_unique _ _ K). Qed.
Lemma exp_unique : unique_mean mean_exp.
Proof. intros f v w H K. unfold mean_exp in *. rewrite <- (is_RInt_gen_unique _ _ H). apply (is_RInt_gen_unique _ _ K). Qed.
Lemma uniform_unique : unique_mean mean_uniform.
Proof. intros f v w H K. unfold mean_uniform in *. rewrite <- (is_RInt_unique _ _ _ _ H). apply (is_RInt_unique _ _ _ _ K). Qed.
Lemma poisson_unique l : unique_mean (mean_poisson l).
Proof. intros f v w H K. unfold mean_poisson in *. apply is_series_unique in H. apply is_series_unique in K. congruence. Qed.
Lemma poisson_linear l : linear_mean (mean_poisson l).
Proof.
  unfold mean_poisson. split; [|split; [|split]].
  - intros f h v E H. eapply is_series_ext; [|exact H]. intro n. cbv beta. rewrite E. reflexivity.
  - intros f h v w H K. eapply is_series_ext; [|exact (is_series_plus _ _ _ _ H K)]. intro n. cbv beta. match goal with |- ?a = ?b => change (@eq R a b) end. unfold plus. cbn. ring.
  - intros f v c H. eapply is_series_ext; [|exact (is_series_scal c _ _ H)]. intro n. cbv beta. match goal with |- ?a = ?b => change (@eq R a b) end. unfold scal. cbn. unfold mult. cbn. ring.
  - intro c. destruct (poisson_exp l (RtoC 1)) as [H _]. apply (is_series_scal c) in H.
    match type of H with is_series _ ?v => replace v with c in H end.
    2: { replace (RtoC l * (RtoC 1 - 1))%C with (RtoC 0) by ring. rewrite cexp_0. unfold scal. cbn. unfold mult. cbn. ring. }
    eapply is_series_ext; [|exact H]. intro n. cbv beta. match goal with |- ?a = ?b => change (@eq R a b) end. unfold scal. cbn -[poisson_prob cpw Z.of_nat Z.to_nat]. unfold mult. cbn -[poisson_prob cpw Z.of_nat Z.to_nat].
    replace (cpw (RtoC 1) (Z.to_nat (Z.of_nat n))) with (RtoC 1). { cbn [fst RtoC]. ring. } induction (Z.to_nat (Z.of_nat n)) as [|k IH]; [reflexivity|]. cbn [cpw]. rewrite <- IH. ring.
Qed.

(** *** many variates: means over x_0, ..., x_{n-1}, one after the other *)
Definition head := nat -> R.
Definition upd (h : head) (c : nat) (x : R) : head := fun k => if (k =? c)%nat then x else h k.
Section Iter.
Variable M : nat -> (R -> R) -> R -> Prop.
Hypothesis ML : forall c, linear_mean (M c).
Hypothesis MU : forall c, unique_mean (M c).
Fixpoint iter (n : nat) (f : head -> R) (v : R) : Prop :=
  match n with
  | O => v = f (fun _ => 0)
  | S n => exists phi, (forall x, iter n (fun h => f (upd h n x)) (phi x)) /\ M n phi v
  end.
Definition dep (n : nat) (f : head -> R) : Prop := forall h h', (forall c, (c < n)%nat -> h c = h' c) -> f h = f h'.
Lemma iter_ext n : forall f f' v, (forall h, f h = f' h) -> iter n f v -> iter n f' v.
Proof.
  induction n as [|n IH]; intros f f' v E H.
  - cbn in *. rewrite H. apply E.
  - destruct H as (phi & H & Hv). exists phi. split; [|exact Hv]. intro x. eapply IH; [|apply H]. intro h. cbv beta. apply E.
Qed.
Lemma iter_unique n : forall f v v', iter n f v -> iter n f v' -> v = v'.
Proof.
  induction n as [|n IH]; intros f v v' H H'.
  - cbn in *. congruence.
  - destruct H as (phi & H & Hv). destruct H' as (phi' & H' & Hv'). apply (MU n phi'); [|exact Hv']. destruct (ML n) as (E & _). eapply E; [|exact Hv]. intro x. eapply IH; eauto.
Qed.
Lemma iter_more n f v k : dep n f -> iter (k + n) f v -> iter n f v.
Proof.
  intros D. revert v. induction k as [|k IH]; intros v H; [exact H|]. cbn [Nat.add iter] in H. destruct H as (phi & H & Hv).
  assert (K : forall x, iter n f (phi x)).
  { intro x. apply IH. eapply iter_ext; [|apply H]. intro h. cbv beta. apply D. intros c Hc. unfold upd. destruct (Nat.eqb_spec c (k + n)); [lia|reflexivity]. }
  assert (v = phi 0). { apply (MU (k + n) phi); [exact Hv|]. destruct (ML (k + n)) as (E & _ & _ & C). eapply E; [|apply C]. intro x. cbv beta. eapply iter_unique; apply K. }
  subst v. apply K.
Qed.
Lemma dep_le n m f : (n <= m)%nat -> dep n f -> dep m f.
Proof. intros H D h h' E. apply D. intros c Hc. apply E. lia. Qed.
Definition mean_of (f : head -> R) (v : R) : Prop := exists n, dep n f /\ iter n f v.
Lemma mean_of_unique : unique_mean mean_of.
Proof.
  intros f v w (n & D & H) (m & D' & H'). destruct (le_lt_dec n m) as [Q|Q].
  - replace m with ((m - n) + n)%nat in H' by lia. apply iter_more in H'; auto. eapply iter_unique; eauto.
  - replace n with ((n - m) + m)%nat in H by lia. apply iter_more in H; auto. eapply iter_unique; eauto.
Qed.
Lemma mean_of_ext f f' v : (forall h, f h = f' h) -> mean_of f v -> mean_of f' v.
Proof. intros E (n & D & H). exists n. split; [|eapply iter_ext; eauto]. intros h h' X. rewrite <- !E. apply D. exact X. Qed.
Lemma mean_of_const c : mean_of (fun _ => c) c.
Proof. exists 0%nat. split; [intros h h' _; reflexivity|reflexivity]. Qed.
(** products *)
Lemma iter_prod (F : nat -> R -> C) (m : nat -> C) n z : (forall c, complex_mean (M c) (F c) (m c)) ->
  iter n (fun h => fst (z * cprod (fun c => F c (h c)) (seq 0 n))%C) (fst (z * cprod m (seq 0 n))%C) /\
  iter n (fun h => snd (z * cprod (fun c => F c (h c)) (seq 0 n))%C) (snd (z * cprod m (seq 0 n))%C).
Proof.
  intro H. revert z. induction n as [|n IH]; intro z; [split; reflexivity|].
  assert (E : forall h x, (z * cprod (fun c => F c (upd h n x c)) (seq 0 (S n)))%C = ((z * F n x) * cprod (fun c => F c (h c)) (seq 0 n))%C).
  { intros h x. rewrite seq_S, cprod_app. cbn [Nat.add]. change (cprod (fun c => F c (upd h n x c)) [n]) with (F n (upd h n x n) * 1)%C. unfold upd at 2. rewrite Nat.eqb_refl.
    rewrite (cprod_ext (fun c => F c (upd h n x c)) (fun c => F c (h c))). { ring. } intros c Hc. apply in_seq in Hc. unfold upd. destruct (Nat.eqb_spec c n); [lia|reflexivity]. }
  set (m0 := cprod m (seq 0 n)). assert (E2 : (z * cprod m (seq 0 (S n)) = (z * m0) * m n)%C).
  { rewrite seq_S, cprod_app. cbn [Nat.add]. change (cprod m [n]) with (m n * 1)%C. fold m0. ring. }
  rewrite E2. destruct (complex_scal (M n) (ML n) (F n) (m n) (z * m0)%C (H n)) as [K1 K2]. split.
  - exists (fun x => fst (z * m0 * F n x)%C). split; [|exact K1]. intro x. eapply iter_ext; [intro h; rewrite E; reflexivity|].
    replace (z * m0 * F n x)%C with (z * F n x * m0)%C by ring. apply IH.
  - exists (fun x => snd (z * m0 * F n x)%C). split; [|exact K2]. intro x. eapply iter_ext; [intro h; rewrite E; reflexivity|].
    replace (z * m0 * F n x)%C with (z * F n x * m0)%C by ring. apply IH.
Qed.

(** *** the generator: a stream of heads, of which each draw uses one *)
Definition gen := nat -> head.
Definition gcons (h : head) (g : gen) : gen := fun n => match n with O => h | S n => g n end.
Definition gtail (g : gen) : gen := fun n => g (S n).
(** the mean, or some number *)
Fixpoint gmean (d : nat) (f : gen -> R) : R :=
  match d with
  | O => f (fun _ _ => 0)
  | S d => real (Lub_Rbar (fun v => mean_of (fun h => gmean d (fun g => f (gcons h g))) v))
  end.
Lemma gmean_is d f v : mean_of (fun h => gmean d (fun g => f (gcons h g))) v -> gmean (S d) f = v.
Proof.
  intro H. cbn [gmean]. rewrite (is_lub_Rbar_unique _ (Finite v)); [reflexivity|]. split.
  - intros x Hx. rewrite (mean_of_unique _ _ _ Hx H). apply Rbar_le_refl.
  - intros b Hb. apply Hb. exact H.
Qed.
Lemma gmean_law : is_law gmean.
Proof.
  split.
  - induction d as [|d IH]; intros f h E; [apply E|]. cbn [gmean]. f_equal. apply Lub_Rbar_eqset. intro v. split; apply mean_of_ext; intro k; [|symmetry]; apply IH; intro g; apply E.
  - induction d as [|d IH]; intro c; [reflexivity|]. apply gmean_is. eapply mean_of_ext; [|apply mean_of_const]. intro h. cbv beta. rewrite IH. reflexivity.
Qed.

(** the draw of an array: entry number p, of x_{K*p+kind p} *)
Fixpoint spot (l : list (list nat)) (ix : list nat) : nat :=
  match l with
  | [] => O
  | jx :: l => if list_eq_dec Nat.eq_dec jx ix then O else S (spot l ix)
  end.
Lemma spot_in l ix : In ix l -> (spot l ix < length l)%nat /\ nth (spot l ix) l [] = ix.
Proof.
  induction l as [|jx l IH]; [easy|]. intro H. cbn [spot]. destruct (list_eq_dec Nat.eq_dec jx ix) as [->|Q]; [split; [cbn; lia|reflexivity]|].
  destruct H as [->|H]; [contradiction|]. destruct (IH H) as [A B]. split; [cbn; lia|exact B].
Qed.
Lemma spot_nth l p : NoDup l -> (p < length l)%nat -> spot l (nth p l []) = p.
Proof.
  intros ND H. destruct (spot_in l (nth p l [])) as [A B]; [apply nth_In; exact H|]. rewrite (NoDup_nth l []) in ND. apply ND; auto.
Qed.
Lemma cprod_shift (f : nat -> C) n : forall a, cprod f (seq a n) = cprod (fun k => f (a + k)%nat) (seq 0 n).
Proof.
  intro a. replace (seq a n) with (map (fun k => a + k)%nat (seq 0 n)); [apply cprod_map|]. revert a. induction n as [|n IH]; intro a; [reflexivity|].
  cbn [seq map]. rewrite Nat.add_0_r. f_equal. rewrite <- seq_shift, map_map, <- (IH (S a)). apply map_ext. intros. lia.
Qed.
Lemma cprod_blocks (f : nat -> C) K n : cprod f (seq 0 (K * n)) = cprod (fun p => cprod (fun k => f (K * p + k)%nat) (seq 0 K)) (seq 0 n).
Proof.
  induction n as [|n IH]; [rewrite Nat.mul_0_r; reflexivity|]. rewrite seq_S, cprod_app, <- IH. cbn [Nat.add]. replace (K * S n)%nat with (K * n + K)%nat by lia. rewrite seq_app, cprod_app. f_equal. cbn [Nat.add].
  rewrite cprod_shift. change (cprod ?f [n]) with (f n * 1)%C. cbv beta. ring.
Qed.
Lemma cprod_single (v : C) k0 K : (k0 < K)%nat -> cprod (fun k => if (k =? k0)%nat then v else 1%C) (seq 0 K) = v.
Proof.
  assert (Z : forall l, ~ In k0 l -> cprod (fun k => if (k =? k0)%nat then v else 1%C) l = 1%C).
  { induction l as [|k l IH]; intro H; [reflexivity|]. change (cprod ?f (k :: l)) with (f k * cprod f l)%C. cbv beta. rewrite IH by (intro; apply H; right; auto). destruct (Nat.eqb_spec k k0); [destruct H; left; auto|ring]. }
  intro H. replace K with (k0 + (1 + (K - k0 - 1)))%nat by lia. rewrite seq_app, cprod_app. cbn [Nat.add seq]. rewrite Z by (rewrite in_seq; lia).
  change (cprod ?f (k0 :: ?l)) with (f k0 * cprod f l)%C. cbv beta. rewrite Nat.eqb_refl. rewrite Z by (rewrite in_seq; lia). ring.
Qed.

Variable K : nat.
Hypothesis HK : (0 < K)%nat.
Variable MK : nat -> (R -> R) -> R -> Prop.
Hypothesis MKM : forall c, M c = MK (c mod K).
Definition gdraw {A} (conv : R -> A) (kind : list nat -> nat) (s : list nat) (g : gen) : res (arr A) * gen :=
  (Ok (mkArr s (fun ix => conv (g 0%nat (K * spot (ndindex s) ix + kind ix)%nat))), gtail g).
Lemma gdraw_law {A} (conv : R -> A) kind s (sup : A -> Prop) (MM : list nat -> (A -> C) -> C -> Prop) :
  (forall ix, (kind ix < K)%nat) -> (forall x, sup (conv x)) ->
  (forall ix f m, inb s ix -> MM ix f m -> complex_mean (MK (kind ix)) (fun x => f (conv x)) m) ->
  draws_law gmean (gdraw conv kind s) s sup MM.
Proof.
  intros HKi HS HM d Phi F m z H Hm. set (l := ndindex s) in *. set (N := List.length l).
  set (Fc := fun c x => if ((c mod K =? kind (nth (c / K) l [])) && (c / K <? N))%nat then F (nth (c / K) l []) (conv x) else RtoC 1).
  set (mc := fun c => if ((c mod K =? kind (nth (c / K) l [])) && (c / K <? N))%nat then m (nth (c / K) l []) else RtoC 1).
  assert (HF : forall c, complex_mean (M c) (Fc c) (mc c)).
  { intro c. rewrite MKM. unfold Fc, mc. destruct (Nat.eqb_spec (c mod K) (kind (nth (c/K) l []))) as [E|E]; [|cbn [andb]; apply complex_const; rewrite <- MKM; apply ML].
    destruct (Nat.ltb_spec (c/K) N) as [Q|Q]; [|cbn [andb]; apply complex_const; rewrite <- MKM; apply ML]. cbn [andb]. rewrite E. assert (I : inb s (nth (c/K) l [])) by (apply in_ndindex, nth_In; exact Q). eapply HM; [exact I|]. apply Hm. exact I. }
  assert (DM : forall p k, (k < K)%nat -> ((K * p + k) / K = p /\ (K * p + k) mod K = k)%nat).
  { intros p k Hk. split; [symmetry; apply Nat.div_unique with k; lia|symmetry; apply Nat.mod_unique with p; lia]. }
  assert (PV : forall v : nat -> list nat -> C, (forall c, v c = v c) ->
    cprod (fun c => if ((c mod K =? kind (nth (c / K) l [])) && (c / K <? N))%nat then v c (nth (c / K) l []) else RtoC 1) (seq 0 (K * N)) =
    cprod (fun ix => v (K * spot l ix + kind ix)%nat ix) l).
  { intros v _. rewrite cprod_blocks. rewrite (cprod_nth _ [] l). fold N. apply cprod_ext. intros p Hp. apply in_seq in Hp. rewrite spot_nth by (try apply NoDup_ndindex; fold N; lia).
    transitivity (cprod (fun k => if (k =? kind (nth p l []))%nat then v (K * p + kind (nth p l []))%nat (nth p l []) else 1%C) (seq 0 K)); [|apply cprod_single; apply HKi].
    apply cprod_ext. intros k Hk. apply in_seq in Hk. destruct (DM p k ltac:(lia)) as [-> ->]. destruct (Nat.ltb_spec p N); [|lia]. rewrite andb_true_r. destruct (Nat.eqb_spec k (kind (nth p l []))) as [->|]; reflexivity. }
  assert (P1 : forall h : head, cprod (fun c => Fc c (h c)) (seq 0 (K * N)) = cprod (fun ix => F ix (conv (h (K * spot l ix + kind ix)%nat))) l).
  { intro h. apply (PV (fun c ix => F ix (conv (h c)))). reflexivity. }
  assert (P2 : cprod mc (seq 0 (K * N)) = cprod m l) by (apply (PV (fun _ ix => m ix)); reflexivity).
  assert (AV : forall h, gmean d (fun g => fst (after (gdraw conv kind s) Phi (gcons h g))) = fst (z * cprod (fun c => Fc c (h c)) (seq 0 (K * N)))%C /\
                         gmean d (fun g => snd (after (gdraw conv kind s) Phi (gcons h g))) = snd (z * cprod (fun c => Fc c (h c)) (seq 0 (K * N)))%C).
  { intro h. rewrite P1, Cmult_comm. destruct (H (mkArr s (fun ix => conv (h (K * spot l ix + kind ix)%nat))) eq_refl) as [H1 H2]; [intros; apply HS|]. cbn [dat] in H1, H2. split; [exact H1|exact H2]. }
  destruct (iter_prod Fc mc (K * N) z HF) as [I1 I2]. rewrite P2, (Cmult_comm z) in I1, I2.
  assert (DP : forall h h' : head, (forall c, (c < K * N)%nat -> h c = h' c) -> (z * cprod (fun c => Fc c (h c)) (seq 0 (K * N)) = z * cprod (fun c => Fc c (h' c)) (seq 0 (K * N)))%C).
  { intros h h' E. f_equal. apply cprod_ext. intros c Hc. apply in_seq in Hc. rewrite E by lia. reflexivity. }
  split; apply gmean_is.
  - eapply mean_of_ext; [intro h; symmetry; apply AV|]. exists (K * N)%nat. split; [intros h h' E; cbv beta; rewrite (DP h h' E); reflexivity|exact I1].
  - eapply mean_of_ext; [intro h; symmetry; apply AV|]. exists (K * N)%nat. split; [intros h h' E; cbv beta; rewrite (DP h h' E); reflexivity|exact I2].
Qed.
End Iter.

(** *** normal, uniform, exponential and Poisson variates, these of the means in a list *)
Section Generator.
Variable ls : list R.
Let K := (3 + length ls)%nat.
Definition kind_mean (k : nat) : (R -> R) -> R -> Prop :=
  match k with
  | 0 => mean_normal
  | 1 => mean_uniform
  | 2 => mean_exp
  | S (S (S j)) => fun f v => mean_poisson (nth j ls 0%R) (fun n => f (IZR n)) v
  end%nat.
Definition coord_mean (c : nat) := kind_mean (c mod K).
Lemma kind_linear k : linear_mean (kind_mean k).
Proof.
  destruct k as [|[|[|j]]]; cbn [kind_mean]; [apply normal_linear|apply uniform_linear|apply exp_linear|].
  destruct (poisson_linear (nth j ls 0)) as (E & P & S & C). split; [|split; [|split]].
  - intros f h v X. apply E. intro n. apply X.
  - intros f h v w H1 H2. exact (P _ _ _ _ H1 H2).
  - intros f v c H. exact (S _ _ _ H).
  - intro c. apply C.
Qed.
Lemma kind_unique k : unique_mean (kind_mean k).
Proof.
  destruct k as [|[|[|j]]]; cbn [kind_mean]; [apply normal_unique|apply uniform_unique|apply exp_unique|].
  intros f v w H1 H2. exact (poisson_unique _ _ _ _ H1 H2).
Qed.
Definition the_law : nat -> (gen -> R) -> R := gmean coord_mean.
Definition the_normal (s : list nat) : gen -> res (arr R) * gen := gdraw K (fun x => x) (fun _ => 0%nat) s.
Definition the_uniform (s : list nat) : gen -> res (arr R) * gen := gdraw K (fun x => x) (fun _ => 1%nat) s.
Definition the_exp (s : list nat) : gen -> res (arr R) * gen := gdraw K (fun x => x) (fun _ => 2%nat) s.
Fixpoint find_mean (l : list R) (x : R) : option nat :=
  match l with
  | [] => None
  | y :: l => if Req_EM_T y x then Some O else option_map S (find_mean l x)
  end.
Definition count (x : R) : Z := Z.max 0 (Int_part x).
Definition the_poisson (l : arr R) (s : list nat) (g : gen) : res (arr Z) * gen :=
  if can (shp l) s then gdraw K count (fun ix => match find_mean ls (bget l ix) with Some j => 3 + j | None => 0 end)%nat s g
  else (Err ValueError, g).
Lemma find_in l x : In x l -> exists j, find_mean l x = Some j /\ nth j l 0 = x.
Proof.
  induction l as [|y l IH]; [easy|]. intro H. cbn [find_mean]. destruct (Req_EM_T y x) as [->|Q]; [exists 0%nat; split; reflexivity|].
  destruct H as [->|H]; [contradiction|]. destruct (IH H) as (j & E & N). exists (S j). rewrite E. split; [reflexivity|exact N].
Qed.
Lemma find_lt l x j : find_mean l x = Some j -> (j < length l)%nat.
Proof. revert j. induction l as [|y l IH]; intros j H; [discriminate|]. cbn [find_mean] in H. destruct (Req_EM_T y x); [injection H as <-; cbn; lia|]. destruct (find_mean l x) as [k|]; [|discriminate]. injection H as <-. specialize (IH k eq_refl). cbn. lia. Qed.
Lemma the_is_law : is_law the_law.
Proof. apply gmean_law; intro c; [apply kind_linear|apply kind_unique]. Qed.
Lemma real_law conv_kind s : (conv_kind < K)%nat -> draws_law the_law (gdraw K (fun x : R => x) (fun _ => conv_kind) s) s (fun _ => True) (fun _ => complex_mean (kind_mean conv_kind)).
Proof.
  intro H. apply gdraw_law with (MK := kind_mean); auto; try (intro c; [apply kind_linear|apply kind_unique]); try (unfold K; lia).
  - intro c. apply kind_linear.
  - intro c. apply kind_unique.
Qed.
Lemma the_normal_law s : normal_law the_law the_normal s.
Proof. apply (real_law 0%nat). unfold K. lia. Qed.
Lemma the_uniform_law s : uniform_law the_law the_uniform s.
Proof. apply (real_law 1%nat). unfold K. lia. Qed.
Lemma the_exp_law s : exp_law the_law the_exp s.
Proof. apply (real_law 2%nat). unfold K. lia. Qed.
Lemma count_nat n : count (IZR (Z.of_nat n)) = Z.of_nat n.
Proof. unfold count. replace (Int_part (IZR (Z.of_nat n))) with (Z.of_nat n); [lia|]. rewrite <- (Int_part_INR n) at 1. rewrite INR_IZR_INZ. reflexivity. Qed.
Lemma the_poisson_law l s : can (shp l) s = true -> (forall ix, inb s ix -> In (bget l ix) ls) -> poisson_law the_law the_poisson l s.
Proof.
  intros HC HI. unfold poisson_law, the_poisson. rewrite HC.
  apply gdraw_law with (MK := kind_mean); auto; try (unfold K; lia).
  - intro c. apply kind_linear.
  - intro c. apply kind_unique.
  - intro ix. destruct (find_mean ls (bget l ix)) as [j|] eqn:E; [apply find_lt in E; unfold K; lia|unfold K; lia].
  - intro x. unfold count. lia.
  - intros ix f m I [H1 H2]. destruct (find_in ls (bget l ix) (HI ix I)) as (j & E & N). rewrite E. cbn [Nat.add kind_mean]. rewrite N.
    destruct (poisson_linear (bget l ix)) as (X & _).
    assert (EX : forall h : Z -> R, forall v, mean_poisson (bget l ix) h v -> mean_poisson (bget l ix) (fun n => h (count (IZR n))) v).
    { intros h v Hv. unfold mean_poisson in *. eapply is_series_ext; [|exact Hv]. intro n. cbv beta. rewrite count_nat. reflexivity. }
    split; [exact (EX (fun n => fst (f n)) _ H1)|exact (EX (fun n => snd (f n)) _ H2)].
Qed.
Lemma the_normal_ok : normal_ok the_normal. Proof. intros s g. unfold the_normal, gdraw. eexists _, _. split; reflexivity. Qed.
Lemma the_uniform_ok : normal_ok the_uniform. Proof. intros s g. unfold the_uniform, gdraw. eexists _, _. split; reflexivity. Qed.
Lemma the_exp_ok : normal_ok the_exp. Proof. intros s g. unfold the_exp, gdraw. eexists _, _. split; reflexivity. Qed.
Lemma the_poisson_ok : poisson_ok the_poisson.
Proof.
  intros l s g. unfold the_poisson. destruct (can (shp l) s); split; try discriminate.
  - intros _ _. unfold gdraw. eexists _, _. reflexivity.
  - intros n g' H. unfold gdraw in H. injection H as <- _. split; [reflexivity|]. intros ix _. cbn [dat]. unfold count. lia.
Qed.
End Generator.
