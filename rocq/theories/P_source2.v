(** Properties of sources without memory: correlations (C28, C29), antithetic sources (C30), compound Poisson sources (C31). *)
From Coq Require Import List Arith Bool Lia ZArith Reals Lra Permutation.
From Verif Require Import Base BaseNum BaseArr BaseNd BaseIdx M_process M_source S_mc S_process S_source L_nd L_process L_process2 L_source P_source.
Import ListNotations.
Local Open Scope R_scope.

(** *** C28 *)
Lemma concat0_block n (f h : nat -> nat -> R) : exists c, concat 0 (mat n n f) (mat n n h) = Ok c /\ shp c = [n + n; n]%nat /\
  forall i j, dat c [i; j] = if (i <? n)%nat then f i j else h (i - n)%nat j.
Proof.
  unfold concat. cbn [mat shp nth upd]. destruct (list_eq_dec Nat.eq_dec [n; n] [n; n]); [|contradiction]. eexists. split; [reflexivity|]. split; [reflexivity|]. intros i j. cbn [dat nth upd mat]. reflexivity.
Qed.
Lemma concat1_block n (a b : arr R) : shp a = [n + n; n]%nat -> shp b = [n + n; n]%nat -> exists c, concat 1 a b = Ok c /\ shp c = [n + n; n + n]%nat /\
  forall i j, dat c [i; j] = if (j <? n)%nat then dat a [i; j] else dat b [i; (j - n)%nat].
Proof.
  intros E1 E2. unfold concat. rewrite E1, E2. cbn [nth upd]. destruct (list_eq_dec Nat.eq_dec [(n + n)%nat; n] [(n + n)%nat; n]); [|contradiction]. eexists. split; [reflexivity|]. split; [reflexivity|]. intros i j. cbn [dat nth upd]. reflexivity.
Qed.
(** a vector of n correlations gives the matrix with rho[i] linking components i and n + i *)
Theorem C28_matrix n (rho : arr R) : is_vector n rho -> exists c, const_rho_to_corr rho = Ok c /\ shp c = [2*n; 2*n]%nat /\
  forall i j, (i < 2*n)%nat -> (j < 2*n)%nat ->
    dat c [i; j] = if (i =? j)%nat then 1 else if (j =? n + i)%nat then rho_at rho i else if (i =? n + j)%nat then rho_at rho j else 0.
Proof.
  intro V. assert (SZ : size (shp rho) = n) by (destruct V as [[E ->]|[E|E]]; rewrite E; cbn; lia).
  assert (IN : shape_in (shp rho) [[]; [n]; [n; 1%nat]] = true).
  { unfold shape_in. apply existsb_exists. destruct V as [[E ->]|[E|E]]; rewrite E; eexists; (split; [|match goal with |- (if ?d then _ else _) = true => destruct d; [reflexivity|contradiction] end]); simpl; auto. }
  assert (RR : forall k, exists y, reshape rho (match k with O => [] | S _ => [n] end) = Ok y \/ (k = O /\ n <> 1%nat)).
  { intros [|k]; unfold reshape; rewrite SZ; cbn [size fold_right].
    - destruct (Nat.eqb_spec 1 n); [eauto|]. exists rho. right. auto.
    - rewrite Nat.mul_1_r, Nat.eqb_refl. eauto. }
  clear RR. unfold const_rho_to_corr. rewrite SZ, IN. cbn [negb]. destruct (Nat.eqb_spec n 1) as [->|NE].
  - unfold reshape. rewrite SZ. cbn [size fold_right Nat.eqb]. cbv beta iota delta [rbind]. eexists. split; [reflexivity|]. split; [reflexivity|]. intros i j Hi Hj. cbn [mat dat nth flat combine fold_left].
    assert (RA : forall k, (k = 0)%nat -> dat rho (unflat (shp rho) 0) = rho_at rho k).
    { intros k ->. unfold rho_at. destruct V as [[E _]|[E|E]]; rewrite E; reflexivity. }
    destruct (Nat.eqb_spec i j); [reflexivity|]. destruct (Nat.eqb_spec j (1 + i)); [apply RA; lia|]. destruct (Nat.eqb_spec i (1 + j)); [apply RA; lia|]. lia.
  - unfold reshape. rewrite SZ. cbn [size fold_right]. rewrite Nat.mul_1_r, Nat.eqb_refl. cbv beta iota delta [rbind]. set (D := diag n _).
    destruct (concat0_block n (fun i j => if (i =? j)%nat then 1 else 0) (fun i j => if (i =? j)%nat then dat rho (unflat (shp rho) (flat [n] [i])) else 0)) as (a & A1 & A2 & A3).
    destruct (concat0_block n (fun i j => if (i =? j)%nat then dat rho (unflat (shp rho) (flat [n] [i])) else 0) (fun i j => if (i =? j)%nat then 1 else 0)) as (b & B1 & B2 & B3).
    assert (RA : forall i, (i < n)%nat -> dat rho (unflat (shp rho) (flat [n] [i])) = rho_at rho i).
    { intros i Hi. unfold rho_at. destruct V as [[E ->]|[E|E]]; [lia| |]; rewrite E; unfold flat; cbn [combine fold_left fst snd unflat size fold_right].
      - rewrite Nat.div_1_r. reflexivity.
      - replace (0 * n + i)%nat with i by lia. replace (1 * 1)%nat with 1%nat by lia. rewrite !Nat.div_1_r, Nat.mod_1_r. reflexivity. }
    subst D. unfold diag, eye. cbv zeta. cbn [dat]. change (nzero (V := R)) with 0. change (none (V := R)) with 1. rewrite A1, B1.
    destruct (concat1_block n a b A2 B2) as (c & C1 & C2 & C3). exists c. split; [exact C1|]. split; [rewrite C2; f_equal; [lia|f_equal; lia]|]. intros i j Hi Hj. rewrite C3, A3, B3.
    destruct (Nat.ltb_spec j n), (Nat.ltb_spec i n).
    + destruct (Nat.eqb_spec i j); [reflexivity|]. destruct (Nat.eqb_spec j (n + i)); [lia|]. destruct (Nat.eqb_spec i (n + j)); [lia|reflexivity].
    + destruct (Nat.eqb_spec (i - n) j), (Nat.eqb_spec i j), (Nat.eqb_spec j (n + i)), (Nat.eqb_spec i (n + j)); try lia; auto. replace (i - n)%nat with j by lia. apply RA; auto.
    + destruct (Nat.eqb_spec i (j - n)), (Nat.eqb_spec i j), (Nat.eqb_spec j (n + i)), (Nat.eqb_spec i (n + j)); try lia; auto.
    + destruct (Nat.eqb_spec (i - n) (j - n)), (Nat.eqb_spec i j), (Nat.eqb_spec j (n + i)), (Nat.eqb_spec i (n + j)); try lia; auto.
Qed.
(** nothing else is accepted *)
Theorem C28_refused (rho : arr R) : (forall n, ~ is_vector n rho) -> const_rho_to_corr rho = Err ValueError.
Proof.
  intro H. unfold const_rho_to_corr. replace (shape_in (shp rho) _) with false; [reflexivity|]. symmetry. unfold shape_in. cbn [existsb].
  destruct (list_eq_dec Nat.eq_dec (shp rho) []) as [E|_]; [exfalso; apply (H 1%nat); left; auto|].
  destruct (list_eq_dec Nat.eq_dec (shp rho) [size (shp rho)]) as [E|_]; [exfalso; apply (H (size (shp rho))); right; left; auto|].
  destruct (list_eq_dec Nat.eq_dec (shp rho) [size (shp rho); 1%nat]) as [E|_]; [exfalso; apply (H (size (shp rho))); right; right; auto|]. reflexivity.
Qed.

Definition sumn (f : nat -> R) (n : nat) : R := total (map f (seq 0 n)).
Lemma sumn_S f n : sumn f (S n) = sumn f n + f n.
Proof. unfold sumn. rewrite seq_S, map_app. unfold total. rewrite fold_right_app. cbn [map fold_right Nat.add]. generalize (map f (seq 0 n)). induction l; simpl; lra. Qed.
Lemma sumn_ext f h n : (forall i, (i < n)%nat -> f i = h i) -> sumn f n = sumn h n.
Proof. intro H. unfold sumn. f_equal. apply map_ext_in. intros i I. apply in_seq in I. apply H. lia. Qed.
Lemma sumn_zero f n : (forall i, (i < n)%nat -> f i = 0) -> sumn f n = 0.
Proof. induction n; intro H; [reflexivity|]. rewrite sumn_S, IHn by auto. rewrite H by lia. ring. Qed.
Lemma sumn_one f n a : (a < n)%nat -> (forall i, (i < n)%nat -> i <> a -> f i = 0) -> sumn f n = f a.
Proof.
  induction n; intros A H; [lia|]. rewrite sumn_S. destruct (Nat.eq_dec a n) as [->|NE].
  - rewrite sumn_zero; [ring|]. intros i I. apply H; lia.
  - rewrite IHn by (lia || (intros; apply H; lia)). rewrite (H n) by lia. ring.
Qed.
Lemma sumn_two f n a b : (a < n)%nat -> (b < n)%nat -> a <> b -> (forall i, (i < n)%nat -> i <> a -> i <> b -> f i = 0) -> sumn f n = f a + f b.
Proof.
  induction n; intros A B AB H; [lia|]. rewrite sumn_S. destruct (Nat.eq_dec a n) as [->|NA].
  - rewrite (sumn_one f n b) by (lia || (intros; apply H; lia)). ring.
  - destruct (Nat.eq_dec b n) as [->|NB].
    + rewrite (sumn_one f n a) by (lia || (intros; apply H; lia)). ring.
    + rewrite IHn by (lia || (intros; apply H; lia)). rewrite (H n) by lia. ring.
Qed.
Lemma sumn_add f h n : sumn (fun i => f i + h i) n = sumn f n + sumn h n.
Proof. induction n; [unfold sumn; simpl; ring|]. rewrite !sumn_S, IHn. ring. Qed.
Lemma sumn_split f n m : sumn f (n + m) = sumn f n + sumn (fun i => f (n + i)%nat) m.
Proof. induction m; [rewrite Nat.add_0_r; unfold sumn at 3; simpl; ring|]. rewrite Nat.add_succ_r, !sumn_S, IHm. ring. Qed.
Lemma sumn_nonneg f n : (forall i, (i < n)%nat -> 0 <= f i) -> 0 <= sumn f n.
Proof. induction n; intro H; [unfold sumn; simpl; lra|]. rewrite sumn_S. pose proof (H n). assert (0 <= sumn f n) by (apply IHn; auto). pose proof (H0 ltac:(lia)). lra. Qed.

Lemma rho_form n rho c x : is_vector n rho -> const_rho_to_corr rho = Ok c ->
  qform (2*n) c x = sumn (fun i => x i * x i + x (n + i)%nat * x (n + i)%nat + 2 * rho_at rho i * x i * x (n + i)%nat) n.
Proof.
  intros V E. destruct (C28_matrix n rho V) as (c' & C1 & _ & C3). rewrite E in C1. injection C1 as <-.
  transitivity (sumn (fun i => sumn (fun j => x i * dat c [i; j] * x j) (2*n)) (2*n)); [reflexivity|].
  replace (2*n)%nat with (n + n)%nat in * by lia. rewrite sumn_split, <- sumn_add. apply sumn_ext. intros i Hi.
  rewrite (sumn_two _ _ i (n + i)%nat), (sumn_two _ _ i (n + i)%nat); try lia.
  - rewrite !C3 by lia. rewrite !Nat.eqb_refl. destruct (Nat.eqb_spec i (n + i)), (Nat.eqb_spec (n + i) i), (Nat.eqb_spec i (n + (n + i))); try lia. ring.
  - intros j Hj N1 N2. rewrite C3 by lia. destruct (Nat.eqb_spec (n + i) j), (Nat.eqb_spec j (n + (n + i))), (Nat.eqb_spec (n + i) (n + j)); try lia. ring.
  - intros j Hj N1 N2. rewrite C3 by lia. destruct (Nat.eqb_spec i j), (Nat.eqb_spec j (n + i)), (Nat.eqb_spec i (n + j)); try lia. ring.
Qed.
(** it is positive semidefinite exactly when all correlations are between -1 and 1 *)
Theorem C28_semidefinite n rho c : is_vector n rho -> const_rho_to_corr rho = Ok c ->
  (forall x, 0 <= qform (2*n) c x) <-> (forall i, (i < n)%nat -> -1 <= rho_at rho i <= 1).
Proof.
  intros V E. split.
  - intros H i Hi. assert (K : forall s, s*s = 1 -> 0 <= 2 + 2 * s * rho_at rho i).
    { intros s S. specialize (H (fun k => if (k =? i)%nat then 1 else if (k =? n + i)%nat then s else 0)). rewrite (rho_form n rho c _ V E) in H. rewrite (sumn_one _ n i Hi) in H.
      - rewrite !Nat.eqb_refl in H. destruct (Nat.eqb_spec (n + i) i); [lia|]. lra.
      - intros k Hk NE. destruct (Nat.eqb_spec k i), (Nat.eqb_spec k (n + i)), (Nat.eqb_spec (n + k) i), (Nat.eqb_spec (n + k) (n + i)); try lia. ring. }
    pose proof (K 1 ltac:(lra)). pose proof (K (-1) ltac:(lra)). lra.
  - intros H x. rewrite (rho_form n rho c x V E). apply sumn_nonneg. intros i Hi. specialize (H i Hi). set (r := rho_at rho i) in *. set (a := x i). set (b := x (n + i)%nat).
    (* a^2 + b^2 + 2 r a b = (1 + r)/2*(a + b)^2 + (1 - r)/2*(a - b)^2 *)
    replace (a*a + b*b + 2*r*a*b) with ((1 + r)/2*((a + b)*(a + b)) + (1 - r)/2*((a - b)*(a - b))) by field.
    assert (0 <= (a + b)*(a + b)) by apply Rle_0_sqr. assert (0 <= (a - b)*(a - b)) by apply Rle_0_sqr.
    apply Rplus_le_le_0_compat; apply Rmult_le_pos; lra.
Qed.
Example C28_ex : exists c, const_rho_to_corr (vec [1/2; -1/3]) = Ok c /\ shp c = [4; 4]%nat /\ dat c [1; 3]%nat = -1/3 /\ dat c [0; 3]%nat = 0 /\ dat c [2; 0]%nat = 1/2 /\ dat c [2; 2]%nat = 1.
Proof.
  destruct (C28_matrix 2 (vec [1/2; -1/3])) as (c & C1 & C2 & C3); [right; left; reflexivity|]. exists c. split; [exact C1|]. split; [exact C2|]. rewrite !C3 by lia. repeat split.
Qed.
Print Assumptions C28_matrix.
Print Assumptions C28_refused.
Print Assumptions C28_semidefinite.

(** *** C29 *)
Lemma setup_shape (z : input R) : get_param_shape (variable_param_setup z) = input_shape z.
Proof. destruct z; reflexivity. Qed.
Definition given (z : input R) : Prop := z <> INone.
Lemma square_ok M s : square_shape s && ((if list_eq_dec Nat.eq_dec (firstn 2 s) [M; M] then true else false) && negb ((List.length s =? 3)%nat && negb (last s 0 =? 1)%nat)) = true <-> s = [M; M] \/ s = [M; M; 1%nat].
Proof.
  destruct s as [|a [|b [|c [|d s]]]]; cbn [square_shape firstn List.length]; try (split; [discriminate|intros [H|H]; discriminate]).
  - destruct (list_eq_dec Nat.eq_dec [a; b] [M; M]) as [E|N]; [injection E as -> ->; rewrite Nat.eqb_refl; cbn; split; auto|]. rewrite andb_false_r. split; [discriminate|]. intros [H|H]; [contradiction|discriminate].
  - cbn [last Nat.eqb]. destruct (list_eq_dec Nat.eq_dec [a; b] [M; M]) as [E|N].
    + injection E as -> ->. rewrite Nat.eqb_refl. cbn [andb]. destruct (Nat.eqb_spec c 1) as [->|N]; cbn; split; auto; try discriminate. intros [H|H]; congruence.
    + rewrite andb_false_l, andb_false_r. split; [discriminate|]. intros [H|H]; [discriminate|]. injection H as -> -> _. contradiction.
Qed.
Lemma wiener_new_none v : wiener_new v (@INone R) INone = Ok PNone.
Proof. destruct v; reflexivity. Qed.
(** without corr and rho anything goes *)
Theorem C29_neither v : wiener_new v (@INone R) INone = Ok PNone.
Proof. destruct v; reflexivity. Qed.
(** with corr: it has the last axis of the values as both axes, and possibly a paths axis, as far as its shape can be
    known; and rho is not looked at *)
Theorem C29_corr v corr rho : given corr ->
  ((exists c, wiener_new v corr rho = Ok c) <->
    v <> [] /\ forall s, input_shape corr = Some s -> s = [last v 0; last v 0]%nat \/ s = [last v 0; last v 0; 1]%nat) /\
  (forall c, wiener_new v corr rho = Ok c -> c = variable_param_setup corr) /\
  (forall e, wiener_new v corr rho = Err e -> e = ValueError).
Proof.
  intro NC. assert (GC : get_corr_matrix corr rho = if checked (input_shape corr) square_shape then Ok (variable_param_setup corr) else Err ValueError).
  { unfold get_corr_matrix. rewrite <- setup_shape. destruct corr; [destruct NC; reflexivity|..]; reflexivity. }
  unfold wiener_new. rewrite GC. pose proof (setup_shape corr) as SS. set (c := variable_param_setup corr) in *. assert (NN : c <> PNone) by (unfold c; destruct corr; [destruct NC; reflexivity|..]; discriminate).
  destruct (input_shape corr) as [s|] eqn:ES; cbn [checked].
  - pose proof (square_ok (last v 0%nat) s) as SQ. destruct (square_shape s); cbv beta iota delta [rbind].
    + destruct v as [|d v]; [destruct c; [contradiction|..]; (split; [split; [intros [x H]; discriminate|intros [H _]; contradiction]|split; intros; congruence])|].
      rewrite andb_true_l in SQ. destruct c eqn:EC; [contradiction|..]; rewrite SS; (match goal with |- context [if ?b then Ok _ else _] => destruct b end;
        [split; [split; [intros _; split; [discriminate|]; intros s' E; injection E as <-; apply SQ; reflexivity|eauto]|split; intros; congruence]
        |split; [split; [intros [x H]; discriminate|intros [_ H]; specialize (H s eq_refl); apply SQ in H; discriminate]|split; intros; congruence]]).
    + split; [split; [intros [x H]; discriminate|intros [_ H]; specialize (H s eq_refl); apply SQ in H; discriminate]|split; intros; congruence].
  - cbv beta iota delta [rbind]. rewrite SS. destruct v as [|d v]; [destruct c; [contradiction|..]; (split; [split; [intros [x H]; discriminate|intros [H _]; contradiction]|split; intros; congruence])|].
    destruct c; [contradiction|..]; (split; [split; [intros _; split; [discriminate|discriminate]|eauto]|split; intros; congruence]).
Qed.

Definition rho_fits (M : nat) (s : list nat) : Prop := (s = [] /\ M = 2%nat) \/ exists n, (s = [n] \/ s = [n; 1%nat]) /\ M = (2*n)%nat.
Lemma vector_ok s : vector_shape s = true <-> s = [] \/ exists n, s = [n] \/ s = [n; 1%nat].
Proof.
  destruct s as [|a [|b [|c s]]]; cbn [vector_shape]; split; auto; intro H; try (destruct H as [H|[n [H|H]]]; discriminate H).
  - right. eauto.
  - apply Nat.eqb_eq in H. subst b. eauto.
  - destruct H as [H|[n [H|H]]]; try discriminate H. injection H as _ ->. apply Nat.eqb_refl.
  - discriminate.
Qed.
(** with rho only: one number for 2 components, n numbers for 2n *)
Theorem C29_rho v rho : given rho ->
  ((exists c, wiener_new v INone rho = Ok c) <->
    v <> [] /\ forall s, input_shape rho = Some s -> rho_fits (last v 0%nat) s) /\
  (forall e, wiener_new v INone rho = Err e -> e = ValueError).
Proof.
  intro NC. set (M := last v 0%nat).
  (* what the constructor sees: an error, or a matrix with a shape *)
  assert (GC : exists r, get_corr_matrix INone rho = r /\
    match input_shape rho with
    | None => exists c, r = Ok c /\ c <> PNone /\ get_param_shape c = None
    | Some s => if vector_shape s then exists c, r = Ok c /\ c <> PNone /\ get_param_shape c = Some (match s with [] => [2; 2] | d :: _ => [2*d; 2*d] end)%nat
                else r = Err ValueError
    end).
  { eexists. split; [reflexivity|]. rewrite <- setup_shape. unfold get_corr_matrix. destruct rho as [|a|f|p]; [destruct NC; reflexivity|..]; cbn [variable_param_setup get_param_shape checked param_call].
    - destruct (vector_shape (shp a)) eqn:VS; cbn [negb]; [|reflexivity]. apply vector_ok in VS.
      assert (VV : exists n, is_vector n a /\ (match shp a with [] => [2; 2] | d :: _ => [2*d; 2*d] end = [2*n; 2*n])%nat).
      { destruct VS as [E|[n [E|E]]]; unfold is_vector; rewrite E; [exists 1%nat|exists n|exists n]; split; auto. }
      destruct VV as (n & VV & E). destruct (C28_matrix n a VV) as (c & C1 & C2 & _). rewrite C1. cbv beta iota delta [rbind]. exists (PArr c). split; [reflexivity|]. split; [discriminate|]. cbn [get_param_shape]. rewrite C2, E. reflexivity.
    - destruct (f none) as [x|e]; cbn [checked].
      + destruct (vector_shape (shp x)); cbn [negb]; [|reflexivity]. eexists. split; [reflexivity|]. split; [discriminate|]. cbn [get_param_shape]. destruct (shp x); reflexivity.
      + cbn [negb]. eexists. split; [reflexivity|]. split; [discriminate|]. reflexivity.
    - destruct (vector_shape (vshape p ++ [paths p])) eqn:VS; cbn [negb]; [|reflexivity]. eexists. split; [reflexivity|]. split; [discriminate|]. cbn [get_param_shape]. destruct (vshape p ++ [paths p]); reflexivity. }
  destruct GC as (r & E & GC). unfold wiener_new. rewrite E. destruct (input_shape rho) as [s|].
  - destruct (vector_shape s) eqn:VS.
    + destruct GC as (c & -> & NN & SS). cbv beta iota delta [rbind]. destruct v as [|d v]; [destruct c; [contradiction|..]; (split; [split; [intros [x H]; discriminate|intros [H _]; contradiction]|intros; congruence])|].
      fold M. set (k := match s with [] => 2%nat | d :: _ => (2*d)%nat end). replace (match s with [] => [2%nat; 2%nat] | d :: _ => [(2*d)%nat; (2*d)%nat] end) with [k; k] in SS by (unfold k; destruct s; reflexivity).
      assert (FT : M = k <-> rho_fits M s).
      { unfold rho_fits. apply vector_ok in VS. unfold k. destruct VS as [->|[n [->| ->]]]; split.
        - auto.
        - intros [[_ ->]|[n [[H|H] _]]]; [reflexivity|discriminate H..].
        - intros ->. right. exists n. auto.
        - intros [[H _]|[m [[H|H] ->]]]; [discriminate H| |discriminate H]. injection H as ->. reflexivity.
        - intros ->. right. exists n. auto.
        - intros [[H _]|[m [[H|H] ->]]]; [discriminate H|discriminate H|]. injection H as ->. reflexivity. }
      assert (BB : (if list_eq_dec Nat.eq_dec (firstn 2 [k; k]) [M; M] then true else false) && negb ((List.length [k; k] =? 3)%nat && negb (last [k; k] 0 =? 1)%nat) = true <-> M = k).
      { cbn [firstn List.length Nat.eqb andb negb]. rewrite andb_true_r. destruct (list_eq_dec Nat.eq_dec [k; k] [M; M]) as [e|n]; split; auto; try discriminate; [intros _; congruence|]. intros ->. destruct n. reflexivity. }
      destruct c eqn:EC; [contradiction|..]; rewrite SS; (match goal with |- context [if ?b then Ok _ else _] => destruct b end;
        [split; [split; [intros _; split; [discriminate|]; intros s' E'; injection E' as <-; apply FT, BB; reflexivity|eauto]|intros; congruence]
        |split; [split; [intros [x H]; discriminate|intros [_ H]; specialize (H s eq_refl); apply FT, BB in H; discriminate]|intros; congruence]]).
    + rewrite GC. cbv beta iota delta [rbind]. split; [split; [intros [x H]; discriminate|]|intros; congruence]. intros [_ H]. specialize (H s eq_refl).
      assert (vector_shape s = true); [|congruence]. apply vector_ok. destruct H as [[-> _]|[n [H _]]]; [auto|right; exists n; exact H].
  - destruct GC as (c & -> & NN & SS). cbv beta iota delta [rbind]. rewrite SS. destruct v as [|d v]; [destruct c; [contradiction|..]; (split; [split; [intros [x H]; discriminate|intros [H _]; contradiction]|intros; congruence])|].
    destruct c; [contradiction|..]; (split; [split; [intros _; split; [discriminate|discriminate]|eauto]|intros; congruence]).
Qed.
(** a time dependent rho gives, at each time, the matrix of the rho at that time *)
Theorem C29_rho_at v f c : wiener_new v INone (IFun f) = Ok c -> exists h s, c = PFun h s /\ forall t, h t = match f t with Ok x => const_rho_to_corr x | Err e => Err e end.
Proof.
  unfold wiener_new, get_corr_matrix. cbn [variable_param_setup get_param_shape param_call]. destruct (negb _); [discriminate|]. cbv beta iota delta [rbind]. destruct v as [|d v]; [discriminate|]. cbn [get_param_shape].
  destruct (match f none with Ok x => Some (shp x) | Err _ => None end) as [[|d' s]|].
  - match goal with |- context [if ?b then Ok _ else _] => destruct b end; [|discriminate]. intro E. injection E as <-. eauto.
  - match goal with |- context [if ?b then Ok _ else _] => destruct b end; [|discriminate]. intro E. injection E as <-. eauto.
  - intro E. injection E as <-. eauto.
Qed.
(** "path dependent corr is not supported", yet a process of M values and M paths is taken: its paths are used as columns
    of the correlation matrix *)
Definition two_paths : proc R := mkProc [0; 1] (mkArr [2; 2; 2]%nat (fun ix => if (nth 1 ix 0 =? nth 2 ix 0)%nat then 1 else 1/2)) Linear.
Theorem C29_paths_refuted : exists p : proc R, paths p <> 1%nat /\ exists c, wiener_new [2]%nat (IProc p) INone = Ok c.
Proof. exists two_paths. split; [discriminate|]. eexists. reflexivity. Qed.
Example C29_ex : let I2 := IArr (eye (V := R) 2) in let I3 := IArr (eye (V := R) 3) in
  wiener_new [5; 2]%nat I2 I3 = Ok (PArr (eye 2)) /\ wiener_new [5; 2]%nat I3 INone = Err ValueError /\ wiener_new [] I2 INone = Err ValueError /\
  (exists c, wiener_new [4]%nat INone (IArr (vec [1/2; 1/3])) = Ok (PArr c)) /\ wiener_new [3]%nat INone (IArr (vec [1/2; 1/3])) = Err ValueError /\
  (exists c, wiener_new [4]%nat (IFun (fun t => if Rlt_dec t 2 then Err ValueError else Ok (eye 3))) INone = Ok c).
Proof.
  cbv zeta. repeat split; try reflexivity; try (eexists; reflexivity).
  destruct (proj2 (proj1 (C29_corr [4]%nat (IFun (fun t => if Rlt_dec t 2 then Err ValueError else Ok (eye 3))) INone ltac:(discriminate)))) as [c H]; [|eauto]. split; [discriminate|]. cbn [input_shape]. change (none (V := R)) with 1. destruct (Rlt_dec 1 2); [discriminate|lra].
Qed.
Print Assumptions C29_neither.
Print Assumptions C29_corr.
Print Assumptions C29_rho.
Print Assumptions C29_rho_at.
Print Assumptions C29_paths_refuted.

(** *** C30 *)
Theorem C30_even_paths n : antithetics_new n = (if Nat.even n then Ok (n/2)%nat else Err ValueError) /\ forall m, antithetics_new n = Ok m -> (n = 2*m)%nat.
Proof.
  unfold antithetics_new. rewrite <- Nat.negb_even. destruct (Nat.even n) eqn:E; cbn [negb]; split; auto; intros m H; [|discriminate]. assert (M : m = Nat.div n 2) by congruence. clear H. subst m. apply Nat.even_spec in E. destruct E as [k ->]. pose proof (Nat.div_mul k 2 ltac:(lia)) as D. rewrite (Nat.mul_comm k 2) in D. rewrite D. reflexivity.
Qed.
(** the first half of the paths are those of the underlying source, the second half their transforms *)
Theorem C30_halves {G B} (transform : B -> B) (base : G -> res (arr B) * G) g dz g' s n : base g = (Ok dz, g') -> shp dz = s ++ [n] ->
  exists z, antithetics_call transform base g = (Ok z, g') /\ shp z = s ++ [(2*n)%nat] /\
    forall ix j, inb s ix -> (j < n)%nat -> dat z (ix ++ [j]) = dat dz (ix ++ [j]) /\ dat z (ix ++ [(n + j)%nat]) = transform (dat dz (ix ++ [j])).
Proof.
  intros E S. unfold antithetics_call, dbind. rewrite E. unfold dres, concat. cbn [amap shp]. rewrite S, app_length. cbn [List.length]. replace (List.length s + 1 - 1)%nat with (List.length s) by lia.
  assert (N : forall (l : list nat) x, nth (List.length l) (l ++ [x]) 0%nat = x) by (intros l x; rewrite app_nth2, Nat.sub_diag by lia; reflexivity).
  assert (U : forall (l : list nat) x y, upd (l ++ [x]) (List.length l) y = l ++ [y]).
  { induction l as [|a l IH]; intros x y; [reflexivity|]. cbn [app List.length upd]. f_equal. apply IH. }
  rewrite !N, U. destruct (list_eq_dec Nat.eq_dec (s ++ [n]) (s ++ [n])); [|contradiction]. eexists. split; [reflexivity|]. cbn [shp dat]. split; [rewrite U; do 2 f_equal; lia|].
  intros ix j I J. rewrite <- (inb_length _ _ I). rewrite !N, U. destruct (Nat.ltb_spec j n); [|lia]. destruct (Nat.ltb_spec (n + j) n); [lia|]. split; auto. replace (n + j - n)%nat with j by lia. rewrite U. reflexivity.
Qed.
(** errors are those of the underlying source *)
Theorem C30_errors {G B} (transform : B -> B) (base : G -> res (arr B) * G) g e g' : base g = (Err e, g') -> antithetics_call transform base g = (Err e, g').
Proof. intro E. unfold antithetics_call, dbind. rewrite E. reflexivity. Qed.
(** opposite paths: the sum over paths is zero, whatever is drawn *)
Theorem C30_odd {G} (base : G -> res (arr R) * G) g dz g' s n : base g = (Ok dz, g') -> shp dz = s ++ [n] ->
  exists z, antithetics_call Ropp base g = (Ok z, g') /\ shp z = s ++ [(2*n)%nat] /\
    forall ix, inb s ix -> total (map (fun j => dat z (ix ++ [j])) (seq 0 (2*n))) = 0 /\
      forall j, (j < n)%nat -> dat z (ix ++ [(n + j)%nat]) = - dat z (ix ++ [j]).
Proof.
  intros E S. destruct (C30_halves Ropp base g dz g' s n E S) as (z & Z1 & Z2 & Z3). exists z. split; [exact Z1|]. split; [exact Z2|]. intros ix I. split.
  - change (sumn (fun j => dat z (ix ++ [j])) (2*n) = 0). replace (2*n)%nat with (n + n)%nat by lia. rewrite sumn_split, <- sumn_add. apply sumn_zero. intros i Hi. destruct (Z3 ix i I Hi) as [-> ->]. ring.
  - intros j J. destruct (Z3 ix j I J) as [-> ->]. reflexivity.
Qed.
(** equal paths *)
Theorem C30_even {G B} (base : G -> res (arr B) * G) g dz g' s n : base g = (Ok dz, g') -> shp dz = s ++ [n] ->
  exists z, antithetics_call (fun x => x) base g = (Ok z, g') /\ shp z = s ++ [(2*n)%nat] /\
    forall ix j, inb s ix -> (j < n)%nat -> dat z (ix ++ [j]) = dat dz (ix ++ [j]) /\ dat z (ix ++ [(n + j)%nat]) = dat z (ix ++ [j]).
Proof.
  intros E S. destruct (C30_halves (fun x => x) base g dz g' s n E S) as (z & Z1 & Z2 & Z3). exists z. split; [exact Z1|]. split; [exact Z2|]. intros ix j I J. destruct (Z3 ix j I J) as [-> ->]. auto.
Qed.
Example C30_ex : exists z, antithetics_call Ropp (fun g : nat => (Ok (vec [3; 7]), S g)) 0%nat = (Ok z, 1%nat) /\ shp z = [4]%nat /\ map (fun j => dat z [j]) (seq 0 4) = [3; 7; -3; -7] /\ antithetics_new 5 = Err ValueError.
Proof.
  destruct (C30_halves Ropp (fun g : nat => (Ok (vec [3; 7]), S g)) 0%nat (vec [3; 7]) 1%nat [] 2 eq_refl eq_refl) as (z & Z1 & Z2 & Z3). exists z. split; [exact Z1|]. split; [exact Z2|]. split; [|reflexivity].
  destruct (Z3 [] 0%nat ltac:(constructor) ltac:(lia)) as [A0 A2]. destruct (Z3 [] 1%nat ltac:(constructor) ltac:(lia)) as [A1 A3]. cbn [app Nat.add seq map] in *. rewrite A0, A1, A2, A3. reflexivity.
Qed.
Print Assumptions C30_even_paths.
Print Assumptions C30_halves.
Print Assumptions C30_errors.
Print Assumptions C30_odd.
Print Assumptions C30_even.
