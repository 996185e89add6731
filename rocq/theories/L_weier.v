(** Lemmas on dominated integrals on the half line, and on the approximation of continuous functions by polynomials. *)
From Coq Require Import List Arith Reals Lra Psatz Lia.
From Coquelicot Require Import Coquelicot.
From Verif Require Import S_dist L_complex L_gauss L_gauss2 L_dist S_cir L_gamma.
Import ListNotations.
Local Open Scope R_scope.

(** *** the half line *)
Lemma half_int_dom f D a b : cont_pos f -> cont_pos D -> (forall x, 0 < x -> Rabs (f x) <= D x) -> 0 < a -> a <= b -> Rabs (RInt f a b) <= RInt D a b.
Proof.
  intros Cf CD B A AB. apply Rabs_le. split.
  - rewrite <- (RInt_opp (V := R_CompleteNormedModule) D) by (apply cont_int; auto; lra). 
    apply RInt_le; [lra|apply (ex_RInt_opp (V := R_NormedModule)), cont_int; auto; lra|apply cont_int; auto; lra|]. intros x X. assert (Y := B x ltac:(lra)). assert (Z := Rle_abs (- f x)). rewrite Rabs_Ropp in Z. unfold opp. simpl. lra.
  - apply RInt_le; [lra|apply cont_int; auto; lra|apply cont_int; auto; lra|]. intros x X. assert (Y := B x ltac:(lra)). assert (Z := Rle_abs (f x)). lra.
Qed.
Lemma half_int_sub f D a b c d : cont_pos f -> cont_pos D -> (forall x, 0 < x -> Rabs (f x) <= D x) -> 0 < a -> a <= c -> c <= d -> d <= b ->
  Rabs (RInt f a b - RInt f c d) <= RInt D a b - RInt D c d.
Proof.
  intros Cf CD B A AC CB DB.
  assert (I : forall g u v, cont_pos g -> 0 < u -> 0 < v -> ex_RInt g u v) by (intros; apply cont_int; auto).
  rewrite <- (RInt_Chasles f a c b), <- (RInt_Chasles f c d b), <- (RInt_Chasles D a c b), <- (RInt_Chasles D c d b) by (apply I; auto; lra).
  unfold plus. simpl. assert (X := half_int_dom f D a c Cf CD B A AC). assert (Y := half_int_dom f D d b Cf CD B ltac:(lra) DB).
  match goal with |- Rabs ?e <= _ => replace e with (RInt f a c + RInt f d b) by ring end. eapply Rle_trans; [apply Rabs_triang|]. lra.
Qed.
Lemma half_tail D w : half_line D w -> cont_pos D -> (forall x, 0 < x -> 0 <= D x) -> forall eps, 0 < eps ->
  exists m, 1 <= m /\ forall a b, 0 < a -> a < / m -> m < b -> w - eps < RInt D a b <= w.
Proof.
  intros H C P eps EP. destruct (half_elim D w H eps EP) as (d & M & DP & K). exists (Rmax 1 (Rmax (/ d) M)).
  pose proof (Rmax_l 1 (Rmax (/ d) M)). pose proof (Rmax_r 1 (Rmax (/ d) M)). pose proof (Rmax_l (/ d) M). pose proof (Rmax_r (/ d) M). set (m := Rmax 1 (Rmax (/ d) M)) in *.
  split; [lra|]. intros a b A AM BM. assert (ID : 0 < / d) by (apply Rinv_0_lt_compat; auto).
  assert (a < d). { eapply Rlt_le_trans; [exact AM|]. rewrite <- (Rinv_inv d). apply Rinv_le_contravar; lra. }
  assert (/ m <= 1) by (rewrite <- Rinv_1; apply Rinv_le_contravar; lra).
  split; [|apply int_le_half; auto; lra]. specialize (K a b A ltac:(lra) ltac:(lra) ltac:(lra)). apply Rabs_def2 in K. lra.
Qed.
(** dominated functions are integrable *)
Lemma half_exists f D w : half_line D w -> cont_pos f -> cont_pos D -> (forall x, 0 < x -> Rabs (f x) <= D x) -> exists v, half_line f v.
Proof.
  intros HD Cf CD B. assert (PD : forall x, 0 < x -> 0 <= D x) by (intros x X; eapply Rle_trans; [apply Rabs_pos|apply B; auto]).
  set (u := fun n => RInt f (/ INR (S n)) (INR (S n))).
  assert (SP : forall n, 1 <= INR (S n)) by (intro n; rewrite S_INR; assert (X := pos_INR n); lra).
  assert (IP : forall m, 1 <= m -> 0 < / m <= 1) by (intros m M; split; [apply Rinv_0_lt_compat; lra|rewrite <- Rinv_1; apply Rinv_le_contravar; lra]).
  assert (CA : Cauchy_crit u).
  { intros eps EP. destruct (half_tail D w HD CD PD eps EP) as (M & P & K). destruct (nfloor_ex M ltac:(lra)) as [N [_ HN]]. exists (S N).
    assert (W : forall n, (S N <= n)%nat -> M < INR (S n)) by (intros n L; apply le_INR in L; rewrite S_INR in L; rewrite S_INR; lra).
    assert (G : forall n m, (S N <= n)%nat -> (n <= m)%nat -> Rabs (u m - u n) < eps).
    { intros n m L1 L2. pose proof (W n L1). pose proof (W m ltac:(lia)). assert (L3 : INR (S n) <= INR (S m)) by (apply le_INR; lia).
      assert (I1 : / INR (S m) <= / INR (S n)) by (apply Rinv_le_contravar; [specialize (SP n); lra|auto]).
      assert (I2 : / INR (S n) < / M) by (apply Rinv_lt_contravar; [nra|auto]).
      pose proof (IP _ (SP n)). pose proof (IP _ (SP m)). pose proof (SP n). pose proof (SP m).
      pose proof (half_int_sub f D (/ INR (S m)) (INR (S m)) (/ INR (S n)) (INR (S n)) Cf CD B ltac:(lra) ltac:(lra) ltac:(lra) ltac:(lra)).
      pose proof (K (/ INR (S m)) (INR (S m)) ltac:(lra) ltac:(lra) ltac:(lra)). pose proof (K (/ INR (S n)) (INR (S n)) ltac:(lra) ltac:(lra) ltac:(lra)). unfold u. lra. }
    intros n m Ln Lm. unfold R_dist. destruct (Nat.le_ge_cases n m); [rewrite Rabs_minus_sym; apply G|apply G]; auto. }
  destruct (Rcomplete.R_complete _ CA) as [v V]. exists v. apply half_intro; auto. intros eps EP.
  destruct (half_tail D w HD CD PD (eps/2) ltac:(lra)) as (M & P & K). exists (/ M), M. pose proof (IP M P). split; [lra|]. intros a b A AM BP BM.
  destruct (V (eps/2) ltac:(lra)) as [N HN]. destruct (nfloor_ex (Rmax (/ a) b)) as [n0 [_ Hn]]; [pose proof (Rmax_r (/ a) b); lra|].
  set (n := Nat.max N n0). specialize (HN n (Nat.le_max_l _ _)). unfold R_dist in HN.
  assert (NB : Rmax (/ a) b < INR (S n)). { eapply Rlt_le_trans; [exact Hn|]. rewrite <- S_INR. apply le_INR. unfold n. lia. }
  pose proof (Rmax_l (/ a) b). pose proof (Rmax_r (/ a) b). assert (0 < / a) by (apply Rinv_0_lt_compat; auto).
  assert (NA : / INR (S n) < a). { rewrite <- (Rinv_inv a). apply Rinv_lt_contravar; [nra|lra]. }
  pose proof (IP _ (SP n)).
  pose proof (half_int_sub f D (/ INR (S n)) (INR (S n)) a b Cf CD B ltac:(lra) ltac:(lra) ltac:(lra) ltac:(lra)).
  pose proof (K (/ INR (S n)) (INR (S n)) ltac:(lra) ltac:(lra) ltac:(lra)). pose proof (K a b A AM BM). fold (u n) in *.
  replace (RInt f a b - v) with (- (u n - RInt f a b) + (u n - v)) by ring.
  eapply Rle_lt_trans; [apply Rabs_triang|]. rewrite Rabs_Ropp. lra.
Qed.
Lemma half_le f D v w : half_line f v -> half_line D w -> cont_pos f -> cont_pos D -> (forall x, 0 < x -> Rabs (f x) <= D x) -> Rabs v <= w.
Proof.
  intros HF HD Cf CD B. assert (PD : forall x, 0 < x -> 0 <= D x) by (intros x X; eapply Rle_trans; [apply Rabs_pos|apply B; auto]).
  apply le_epsilon. intros eps EP. destruct (half_elim f v HF eps EP) as (d & M & DP & K).
  set (a := Rmin 1 (d/2)). set (b := Rmax 1 (M + 1)). assert (0 < a) by (apply Rmin_pos; lra). assert (a <= 1) by apply Rmin_l. assert (a <= d/2) by apply Rmin_r. assert (1 <= b) by apply Rmax_l. assert (M + 1 <= b) by apply Rmax_r.
  specialize (K a b ltac:(lra) ltac:(lra) ltac:(lra) ltac:(lra)).
  pose proof (half_int_dom f D a b Cf CD B ltac:(lra) ltac:(lra)). pose proof (int_le_half D w a b HD CD PD ltac:(lra) ltac:(lra)).
  replace v with (- (RInt f a b - v) + RInt f a b) by ring. eapply Rle_trans; [apply Rabs_triang|]. rewrite Rabs_Ropp. lra.
Qed.

(** *** polynomials *)
Fixpoint pol (l : list R) (u : R) : R := match l with [] => 0 | a :: l => a + u*pol l u end.
Fixpoint padd (l l' : list R) : list R := match l, l' with [], _ => l' | _, [] => l | a :: l, b :: l' => (a + b) :: padd l l' end.
Lemma padd_ok l : forall l' u, pol (padd l l') u = pol l u + pol l' u.
Proof. induction l as [|a l IH]; intros l' u; [cbn; ring|]. destruct l' as [|b l']; [cbn; ring|]. cbn [padd pol]. rewrite IH. ring. Qed.
Definition pscal (c : R) (l : list R) : list R := map (Rmult c) l.
Lemma pscal_ok c l u : pol (pscal c l) u = c*pol l u.
Proof. unfold pscal. induction l as [|a l IH]; cbn [map pol]; [ring|]. rewrite IH. ring. Qed.

(** Bernstein: the mean of g(k), k being the position after m moves of length 1 with probability u, starting from k0 *)
Fixpoint walk (u : R) (m k : nat) (g : nat -> R) : R :=
  match m with O => g k | S m => (1 - u)*walk u m k g + u*walk u m (S k) g end.
Lemma walk_poly g m : forall k, exists l, forall u, walk u m k g = pol l u.
Proof.
  induction m as [|m IH]; intro k.
  - exists [g k]. intro u. cbn. ring.
  - destruct (IH k) as (l & E). destruct (IH (S k)) as (l' & E'). exists (padd (padd l (0 :: pscal (-1) l)) (0 :: l')). intro u. cbn [walk]. rewrite !padd_ok. cbn [pol]. rewrite pscal_ok, E, E'. ring.
Qed.
Lemma walk_le u g h m : 0 <= u <= 1 -> (forall k, g k <= h k) -> forall k, walk u m k g <= walk u m k h.
Proof. intros U H. induction m as [|m IH]; intro k; cbn [walk]; [auto|]. assert (A := IH k). assert (B := IH (S k)). apply Rplus_le_compat; apply Rmult_le_compat_l; lra. Qed.
Lemma walk_le_n u g h N m : 0 <= u <= 1 -> (forall k, (k <= N)%nat -> g k <= h k) -> forall k, (k + m <= N)%nat -> walk u m k g <= walk u m k h.
Proof. intros U H. induction m as [|m IH]; intros k K; cbn [walk]; [apply H; lia|]. assert (A := IH k ltac:(lia)). assert (B := IH (S k) ltac:(lia)). apply Rplus_le_compat; apply Rmult_le_compat_l; lra. Qed.
Lemma walk_aff u a b g m : forall k, walk u m k (fun j => a + b*g j) = a + b*walk u m k g.
Proof. induction m as [|m IH]; intro k; cbn [walk]; [reflexivity|]. rewrite !IH. ring. Qed.
Lemma walk_sq u c m : forall k, walk u m k (fun j => (INR j - c)*(INR j - c)) = (INR k + INR m*u - c)*(INR k + INR m*u - c) + INR m*(u*(1 - u)).
Proof. induction m as [|m IH]; intro k; cbn [walk]; [cbn [INR]; ring|]. rewrite !IH, !S_INR. ring. Qed.

Lemma weierstrass (g : R -> R) eps : (forall u, 0 <= u <= 1 -> continuous g u) -> 0 < eps -> exists l, forall u, 0 <= u <= 1 -> Rabs (g u - pol l u) <= eps.
Proof.
  intros C EP.
  destruct (continuity_ab_maj (fun t => Rabs (g t)) 0 1 ltac:(lra)) as (um & HM & _).
  { intros t T. apply continuity_pt_filterlim. apply (continuous_comp g Rabs); [apply C; auto|]. apply continuous_Rabs. }
  set (M := Rabs (g um)) in *. assert (MP : 0 <= M) by apply Rabs_pos.
  destruct (unifcont_1d g 0 1 (fun x H => C x H) (mkposreal (eps/2) ltac:(lra))) as [d Hd]. assert (DP := cond_pos d). set (dd := pos d) in *.
  assert (UC : forall s t, 0 <= s <= 1 -> 0 <= t <= 1 -> Rabs (s - t) < dd -> Rabs (g s - g t) <= eps/2).
  { intros s t Hs Ht Hst. assert (Y := Hd t s Ht Hs). unfold ball in Y. cbn in Y. unfold AbsRing_ball, abs, minus, plus, opp in Y. cbn in Y.
    change (Rabs (g s + - g t) < eps/2) with (Rabs (g s - g t) < eps/2) in Y. apply Rnot_lt_le. intro Z. apply Y; [exact Hst|lra]. }
  set (K := 2*M/(dd*dd)). assert (KP : 0 <= K) by (unfold K; apply Rmult_le_pos; [lra|left; apply Rinv_0_lt_compat; nra]).
  assert (LI : forall s t, 0 <= s <= 1 -> 0 <= t <= 1 -> Rabs (g s - g t) <= eps/2 + K*((s - t)*(s - t))).
  { intros s t Hs Ht. destruct (Rlt_le_dec (Rabs (s - t)) dd) as [L|L].
    - specialize (UC s t Hs Ht L). assert (0 <= K*((s - t)*(s - t))) by (apply Rmult_le_pos; [auto|exact (Rle_0_sqr (s - t))]). lra.
    - assert (B : Rabs (g s - g t) <= 2*M) by (eapply Rle_trans; [apply Rabs_triang|]; rewrite Rabs_Ropp; assert (A1 := HM s Hs); assert (A2 := HM t Ht); cbv beta in A1, A2; fold M in A1, A2; lra).
      assert (SQ : dd*dd <= (s - t)*(s - t)). { replace ((s - t)*(s - t)) with (Rabs (s - t)*Rabs (s - t)) by (rewrite <- Rabs_mult; apply Rabs_pos_eq; exact (Rle_0_sqr (s - t))). apply Rmult_le_compat; lra. }
      assert (2*M <= K*((s - t)*(s - t))). { apply Rle_trans with (K*(dd*dd)); [right; unfold K; field; lra|apply Rmult_le_compat_l; auto]. } lra. }
  destruct (nfloor_ex (K/eps)) as [n0 [_ HN]]; [apply Rmult_le_pos; [auto|left; apply Rinv_0_lt_compat; auto]|].
  set (N := S n0). assert (NP : 1 <= INR N) by (unfold N; rewrite S_INR; assert (X := pos_INR n0); lra).
  assert (KN : K/INR N <= eps).
  { apply Rmult_le_reg_r with (INR N); [lra|]. unfold Rdiv. rewrite Rmult_assoc, Rinv_l by lra. assert (X : K/eps < INR N) by (unfold N; rewrite S_INR; auto).
    apply Rmult_lt_compat_r with (r := eps) in X; [|auto]. unfold Rdiv in X. rewrite Rmult_assoc, Rinv_l in X by lra. lra. }
  set (gn := fun j => g (INR j/INR N)). destruct (walk_poly gn N 0) as (l & HL). exists l. intros u U. rewrite <- HL.
  assert (JN : forall j, (j <= N)%nat -> 0 <= INR j/INR N <= 1).
  { intros j J. apply le_INR in J. assert (P := pos_INR j). split; [apply Rmult_le_pos; [auto|left; apply Rinv_0_lt_compat; lra]|]. apply Rmult_le_reg_r with (INR N); [lra|]. unfold Rdiv. rewrite Rmult_assoc, Rinv_l; lra. }
  set (sq := fun j => (INR j - INR N*u)*(INR j - INR N*u)).
  assert (SE : forall j, (INR j/INR N - u)*(INR j/INR N - u) = /(INR N*INR N)*sq j) by (intro j; unfold sq; field; lra).
  assert (WS : walk u N 0 sq <= INR N/4). { unfold sq. rewrite walk_sq. cbn [INR]. assert (Y : u*(1 - u) <= /4) by (assert (Z := Rle_0_sqr (u - /2)); unfold Rsqr in Z; lra).
    replace ((0 + INR N*u - INR N*u)*(0 + INR N*u - INR N*u)) with 0 by ring. apply Rmult_le_compat_l with (r := INR N) in Y; lra. }
  set (c := K*/(INR N*INR N)). assert (CP : 0 <= c) by (unfold c; apply Rmult_le_pos; [auto|left; apply Rinv_0_lt_compat; apply Rmult_lt_0_compat; lra]).
  assert (CW : c*walk u N 0 sq <= eps/4).
  { apply Rle_trans with (c*(INR N/4)); [apply Rmult_le_compat_l; auto|]. apply Rle_trans with (K/INR N/4); [right; unfold c; field; lra|lra]. }
  assert (UP : walk u N 0 gn <= g u + eps/2 + c*walk u N 0 sq).
  { rewrite <- walk_aff. apply (walk_le_n u _ _ N); auto. intros j J. unfold gn. assert (X := LI _ u (JN j J) U). rewrite SE in X. apply Rabs_le_between in X. unfold c. lra. }
  assert (LO : g u - eps/2 + (- c)*walk u N 0 sq <= walk u N 0 gn).
  { rewrite <- walk_aff. apply (walk_le_n u _ _ N); auto. intros j J. unfold gn. assert (X := LI _ u (JN j J) U). rewrite SE in X. apply Rabs_le_between in X. unfold c. lra. }
  apply Rabs_le. lra.
Qed.
