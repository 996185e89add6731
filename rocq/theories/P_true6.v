(** C24: the Poisson bridge, and the probability of the counts stored by true_poisson_source; C23: evaluations succeed. *)
From Coq Require Import List Arith Bool Lia ZArith Reals Lra Sorted.
From Verif Require Import Base BaseNum BaseArr BaseNd BaseIdx M_process M_source M_true S_process S_source S_mc S_true L_nd L_sdes L_process L_process2 L_source L_true L_true2 L_true3 P_source P_true P_true2 P_true3 P_true5.
Import ListNotations.
Local Open Scope R_scope.

(** *** splitting a Poisson count by a binomial draw *)
Theorem C24_split lam t1 t2 s n k : t1 < s < t2 ->
  poisson_pmf (lam * (t2 - t1)) n * binomial_pmf n ((s - t1)/(t2 - t1)) k = poisson_pmf (lam * (s - t1)) k * poisson_pmf (lam * (t2 - s)) (n - k).
Proof.
  intro H. unfold poisson_pmf, binomial_pmf. destruct (Z.ltb_spec n 0), (Z.ltb_spec k 0), (Z.ltb_spec (n - k) 0), (Z.leb_spec 0 k), (Z.leb_spec k n); try lia; cbn [andb]; try ring.
  rewrite Z2Nat.inj_sub by lia. set (N := Z.to_nat n). set (K := Z.to_nat k). assert (L : (K <= N)%nat) by (apply Z2Nat.inj_le; lia).
  replace (lam * (t2 - t1)) with (lam * (s - t1) + lam * (t2 - s)) by ring. rewrite Ropp_plus_distr, exp_plus.
  replace (1 - (s - t1)/(t2 - t1)) with ((t2 - s)/(t2 - t1)) by (field; lra).
  assert (P : (lam * (s - t1) + lam * (t2 - s)) ^ N * ((s - t1)/(t2 - t1)) ^ K * ((t2 - s)/(t2 - t1)) ^ (N - K) = (lam * (s - t1)) ^ K * (lam * (t2 - s)) ^ (N - K)).
  { replace (lam * (s - t1) + lam * (t2 - s)) with (lam * (t2 - t1)) by ring. replace N with (K + (N - K))%nat at 1 by lia. rewrite pow_add.
    transitivity ((lam * (t2 - t1) * ((s - t1)/(t2 - t1))) ^ K * (lam * (t2 - t1) * ((t2 - s)/(t2 - t1))) ^ (N - K)).
    - rewrite (Rpow_mult_distr (lam * (t2 - t1)) ((s - t1)/(t2 - t1))), (Rpow_mult_distr (lam * (t2 - t1)) ((t2 - s)/(t2 - t1))). ring.
    - f_equal; f_equal; field; lra. }
  transitivity (exp (- (lam * (s - t1))) * exp (- (lam * (t2 - s))) * ((lam * (s - t1) + lam * (t2 - s)) ^ N * ((s - t1)/(t2 - t1)) ^ K * ((t2 - s)/(t2 - t1)) ^ (N - K)) / (INR (fact K) * INR (fact (N - K)))).
  - field. repeat split; apply INR_fact_neq_0.
  - rewrite P. field. split; apply INR_fact_neq_0.
Qed.
(** these are probabilities *)
Theorem C24_poisson_total a : 0 <= a -> (forall k, 0 <= poisson_pmf a k) /\ infinite_sum (fun n => poisson_pmf a (Z.of_nat n)) 1.
Proof.
  intro A. assert (E : forall n, poisson_pmf a (Z.of_nat n) = exp (- a) * (/ INR (fact n) * a ^ n)).
  { intro n. unfold poisson_pmf. destruct (Z.ltb_spec (Z.of_nat n) 0); [lia|]. rewrite Nat2Z.id. unfold Rdiv. ring. }
  split.
  - intro k. unfold poisson_pmf. destruct (Z.ltb_spec k 0); [lra|]. apply Rmult_le_pos; [apply Rmult_le_pos; [left; apply exp_pos|apply pow_le; auto]|]. left. apply Rinv_0_lt_compat, INR_fact_lt_0.
  - intros eps He. assert (P := exp_pos (- a)). pose proof (proj2_sig (exist_exp a)) as X. change (proj1_sig (exist_exp a)) with (exp a) in X. destruct (X (eps / exp (- a))) as (N & HN); [apply Rmult_lt_0_compat; [lra|apply Rinv_0_lt_compat; auto]|]. exists N. intros n Hn. specialize (HN n Hn).
    replace (sum_f_R0 (fun n => poisson_pmf a (Z.of_nat n)) n) with (exp (- a) * sum_f_R0 (fun i => / INR (fact i) * a ^ i) n).
    + replace 1 with (exp (- a) * exp a) by (rewrite <- exp_plus, Rplus_opp_l; apply exp_0). unfold R_dist in *. rewrite <- Rmult_minus_distr_l, Rabs_mult, (Rabs_right (exp (- a))) by lra. apply (Rmult_lt_compat_l (exp (- a))) in HN; auto. replace (exp (- a) * (eps / exp (- a))) with eps in HN by (field; lra). exact HN.
    + rewrite scal_sum. apply sum_eq. intros i _. rewrite E. ring.
Qed.
Theorem C24_binomial_total n p : 0 <= p <= 1 -> (forall k, 0 <= binomial_pmf (Z.of_nat n) p k) /\ sum_f_R0 (fun k => binomial_pmf (Z.of_nat n) p (Z.of_nat k)) n = 1.
Proof.
  intro Hp. split.
  - intro k. unfold binomial_pmf. destruct ((0 <=? k) && (k <=? Z.of_nat n))%Z; [|lra]. apply Rmult_le_pos; [apply Rmult_le_pos|]; try (apply pow_le; lra). apply Rmult_le_pos; [left; apply INR_fact_lt_0|]. left. apply Rinv_0_lt_compat, Rmult_lt_0_compat; apply INR_fact_lt_0.
  - transitivity ((p + (1 - p)) ^ n); [|replace (p + (1 - p)) with 1 by ring; apply pow1]. rewrite binomial. apply sum_eq. intros i L. unfold binomial_pmf, Binomial.C.
    destruct (Z.leb_spec 0 (Z.of_nat i)), (Z.leb_spec (Z.of_nat i) (Z.of_nat n)); try lia; cbn [andb]. rewrite <- Nat2Z.inj_sub, !Nat2Z.id by auto. reflexivity.
Qed.

Section Poisson.
Context {G : Type}.
Variable poisson : arr R -> list nat -> G -> res (arr Z) * G.
Variable binomial : arr Z -> R -> list nat -> G -> res (arr Z) * G.
Variables (paths : nat) (vshape : list nat).
Let zs := vshape ++ [paths].
Hypothesis Bi : binomial_ok binomial.
(** what new_inside does: the number of trials and the probability of success *)
Theorem C24_arguments (n1 n2 : arr Z) t1 t2 s (g : G) n' o g' : shp n1 = zs -> shp n2 = zs -> poisson_inside binomial n1 n2 t1 t2 s g = (Ok (n', o), g') ->
  (o = None /\ forall ix, inb zs ix -> dat n1 ix = dat n2 ix) \/
  exists n k N, o = Some n /\ (forall ix, inb zs ix -> dat N ix = dat n2 ix - dat n1 ix)%Z /\ binomial N ((s - t1)/(t2 - t1)) zs g = (Ok k, g') /\ (shp n = zs /\ forall ix, inb zs ix -> dat n ix = dat n1 ix + dat k ix)%Z.
Proof.
  intros S1 S2 E. unfold poisson_inside in E. apply dbind_ok in E. destruct E as (b & g1 & H1 & E). apply dres_ok in H1. destruct H1 as [H1 ->]. destruct b.
  - left. apply dret_ok in E. destruct E as [E ->]. injection E as -> ->. split; auto. intros ix I. apply Z.eqb_eq. eapply all_equal_spec; eauto.
  - right. apply dbind_ok in E. destruct E as (N & g1 & H2 & E). apply dres_ok in H2. destruct H2 as [H2 ->]. apply (aop_same_shape _ _ _ zs) in H2; auto. destruct H2 as [Sn Hn].
    apply dbind_ok in E. destruct E as (k & g1 & H3 & E). apply dbind_ok in E. destruct E as (w & g2 & H4 & E). apply dres_ok in H4. destruct H4 as [H4 ->]. apply dret_ok in E. destruct E as [E ->]. injection E as -> ->. exists w, k, N. split; auto. split; auto. rewrite Sn in H3. split; auto.
    destruct (Bi _ _ _ _ _ _ H3 Sn) as [Sk _]. apply (aop_same_shape _ _ _ zs) in H4; auto.
Qed.
Variable L : arr R.
Hypothesis CanL : can (shp L) zs = true.
Local Notation lam := (PArr L).
Hypothesis Po : poisson_ok poisson.
Variable rtol : R.
Hypothesis rtol_pos : 0 <= rtol.
Variable W : G -> R.
Hypothesis Tr : tracks poisson binomial W.
Local Notation out := (poisson_outside poisson paths vshape lam).
Local Notation ins := (poisson_inside binomial).
Local Notation dis := (poisson_disciplined poisson binomial paths vshape lam Po Bi).
Local Notation ret := (retrieve1 (fun n : arr Z => n) out ins rtol).
Local Notation eval := (true_poisson poisson binomial paths vshape lam rtol).
Local Notation id := (fun n : arr Z => n).
Local Notation memory_prob := (memory_prob zs L).
Lemma product_mult (f h : list nat -> R) l : product (map (fun i => f i * h i) l) = product (map f l) * product (map h l).
Proof. unfold product. induction l; simpl; [ring|]. rewrite IHl. ring. Qed.
Lemma product_ext (f h : list nat -> R) l : (forall i, In i l -> f i = h i) -> product (map f l) = product (map h l).
Proof. intro H. f_equal. apply map_ext_in. auto. Qed.
Lemma increments_app rate l p r : increments_prob rate (l ++ p :: r) = increments_prob rate (l ++ [p]) * increments_prob rate (p :: r).
Proof.
  induction l as [|[a x] l IH]; [cbn [app]; destruct p; simpl; ring|]. destruct l as [|[b y] l].
  - destruct p as [b y]. cbn [app]. change (increments_prob rate ((a, x) :: (b, y) :: r)) with (poisson_pmf (rate * (b - a)) (y - x) * increments_prob rate ((b, y) :: r)).
    change (increments_prob rate [(a, x); (b, y)]) with (poisson_pmf (rate * (b - a)) (y - x) * 1). ring.
  - cbn [app] in *. change (increments_prob rate ((a, x) :: (b, y) :: l ++ p :: r)) with (poisson_pmf (rate * (b - a)) (y - x) * increments_prob rate ((b, y) :: l ++ p :: r)).
    change (increments_prob rate ((a, x) :: (b, y) :: l ++ [p])) with (poisson_pmf (rate * (b - a)) (y - x) * increments_prob rate ((b, y) :: l ++ [p])). rewrite IH. ring.
Qed.
Lemma increments_two rate a x b y r : increments_prob rate ((a, x) :: (b, y) :: r) = poisson_pmf (rate * (b - a)) (y - x) * increments_prob rate ((b, y) :: r).
Proof. reflexivity. Qed.
Definition inv_prob (st : list (R * arr Z) * G) : Prop := wf id zs (fst st) /\ W (snd st) = memory_prob (fst st).
Lemma outside_prob n t s g n1 n' g' : out n t s g = (Ok (n1, n'), g') -> shp n = zs -> n1 = n /\ shp n' = zs /\
  (t < s -> W g' = W g * product (map (fun ix => poisson_pmf (bget L ix * (s - t)) (dat n' ix - dat n ix)) (ndindex zs))) /\
  (s < t -> W g' = W g * product (map (fun ix => poisson_pmf (bget L ix * (t - s)) (dat n ix - dat n' ix)) (ndindex zs))).
Proof using Po Tr.
  intros E S. unfold poisson_outside in E. apply dbind_ok in E. destruct E as (d & g1 & H1 & E). apply dbind_ok in E. destruct E as (w & g2 & H2 & E). apply dres_ok in H2. destruct H2 as [H2 ->]. apply dret_ok in E. destruct E as [E ->]. injection E as -> ->. split; auto.
  assert (Sd := poisson_call_shape poisson paths vshape lam Po _ _ _ _ _ H1). destruct (aop_same_shape _ _ _ zs _ H2 S Sd) as [Sw Hw]. split; auto.
  destruct (C26_poisson poisson paths vshape lam (ascalar t) (ascalar (s - t)) g [] d _ Po eq_refl H1) as (_ & ns & T & D). cbn [ndindex] in T. inversion T as [|i l ga b gb r gc E1 T2]; subst. inversion T2; subst. cbn [intensity] in E1.
  assert (Q := proj1 Tr _ _ _ _ _ E1). assert (D' : forall ix, inb zs ix -> dat d ix = (if Rlt_dec 0 (s - t) then dat b ix else if Rlt_dec (s - t) 0 then - dat b ix else 0)%Z).
  { intros ix I. destruct (D [] b ix (or_introl eq_refl) I) as [_ X]. cbn [app] in X. rewrite X. reflexivity. }
  assert (Bl : forall ix, bget (amap (Rmult (Rabs (bget (ascalar (s - t)) []))) L) ix = Rabs (s - t) * bget L ix) by reflexivity.
  fold zs in Q. split; intro Lt; rewrite Q; f_equal; apply product_ext; intros ix I; apply in_ndindex in I; rewrite Bl, Hw, D' by auto.
  - rewrite Rabs_right by lra. destruct (Rlt_dec 0 (s - t)); [|lra]. f_equal; [ring|lia].
  - rewrite Rabs_left by lra. destruct (Rlt_dec 0 (s - t)); [lra|]. destruct (Rlt_dec (s - t) 0); [|lra]. f_equal; [ring|lia].
Qed.
Lemma prob_end l1 tk zk s zn : memory_prob (l1 ++ [(tk, zk); (s, zn)]) = memory_prob (l1 ++ [(tk, zk)]) * product (map (fun ix => poisson_pmf (bget L ix * (s - tk)) (dat zn ix - dat zk ix)) (ndindex zs)).
Proof.
  unfold S_true.memory_prob. rewrite <- product_mult. apply product_ext. intros ix _. unfold entry_path. rewrite !map_app. cbn [map fst snd]. rewrite increments_app, increments_two. cbn [increments_prob]. ring.
Qed.
Lemma prob_start s zn t2 z2 l3 : memory_prob ((s, zn) :: (t2, z2) :: l3) = memory_prob ((t2, z2) :: l3) * product (map (fun ix => poisson_pmf (bget L ix * (t2 - s)) (dat z2 ix - dat zn ix)) (ndindex zs)).
Proof. unfold S_true.memory_prob. rewrite <- product_mult. apply product_ext. intros ix _. unfold entry_path. cbn [map fst snd]. rewrite increments_two. ring. Qed.
Lemma prob_mid l1 tk zk s zn t2 z2 l3 : tk < s < t2 -> memory_prob (l1 ++ (tk, zk) :: (s, zn) :: (t2, z2) :: l3) =
  memory_prob (l1 ++ (tk, zk) :: (t2, z2) :: l3) * product (map (fun ix => binomial_pmf (dat z2 ix - dat zk ix) ((s - tk)/(t2 - tk)) (dat zn ix - dat zk ix)) (ndindex zs)).
Proof.
  intro H. unfold S_true.memory_prob. rewrite <- product_mult. apply product_ext. intros ix _. unfold entry_path. rewrite !map_app. cbn [map fst snd]. rewrite (increments_app _ _ (tk, dat zk ix) (_ :: _ :: _)), (increments_app _ _ (tk, dat zk ix) ((t2, dat z2 ix) :: _)), !increments_two.
  pose proof (C24_split (bget L ix) tk t2 s (dat z2 ix - dat zk ix) (dat zn ix - dat zk ix) H) as Q. replace (dat z2 ix - dat zk ix - (dat zn ix - dat zk ix))%Z with (dat z2 ix - dat zn ix)%Z in Q by lia.
  rewrite <- (Rmult_assoc (poisson_pmf (bget L ix * (s - tk)) _)), <- Q. ring.
Qed.
Lemma out_fail n t s g e g' : out n t s g = (Err e, g') -> shp n = zs -> W g' = W g.
Proof using Po Tr CanL.
  intros E S. unfold poisson_outside in E. apply dbind_state in E. destruct E as (o & g1 & H1 & E). destruct o as [d|e1].
  - assert (Sd := poisson_call_shape poisson paths vshape lam Po _ _ _ _ _ H1). apply dbind_state in E. destruct E as (o & g2 & H2 & E). unfold dres in H2. destruct (aop_same Z.add n d zs S Sd) as (c & Ec & _). rewrite Ec in H2. injection H2 as <- <-. discriminate.
  - destruct E as [_ ->]. unfold poisson_call in H1. apply dbind_state in H1. destruct H1 as (o & g2 & H1 & H2). unfold dres, broadcast2 in H1. cbn [ascalar shp bshape rev bshr option_map] in H1. injection H1 as <- <-. cbv zeta in H2. cbn [shp ndindex each] in H2.
    apply dbind_state in H2. destruct H2 as (o & g3 & H2 & H3). destruct o; [discriminate|]. destruct H3 as [_ ->]. apply dbind_state in H2. destruct H2 as (o & g4 & H2 & H3). destruct o as [b|e2].
    { unfold dbind, dret in H3. discriminate. }
    destruct H3 as [_ ->]. cbn [param_call] in H2. apply dbind_state in H2. destruct H2 as (o & g5 & H2 & H3). unfold dret in H2. injection H2 as <- <-. apply dbind_state in H3. destruct H3 as (o & g6 & H3 & H4). destruct o as [n0|e3].
    + destruct (proj2 (Po _ _ _) _ _ H3) as [Sn _]. unfold dres, broadcast_to in H4. cbn [amap shp] in H4. rewrite Sn, can_refl in H4. discriminate.
    + destruct H4 as [_ ->]. apply (proj1 (proj2 Tr) _ _ _ _ _ H3).
Qed.
Lemma in_fail n1 n2 t1 t2 s g e g' : ins n1 n2 t1 t2 s g = (Err e, g') -> shp n1 = zs -> shp n2 = zs -> W g' = W g.
Proof using Bi Tr.
  intros E S1 S2. unfold poisson_inside in E. apply dbind_state in E. destruct E as (o & g1 & H1 & E). unfold dres in H1. injection H1 as <- <-. destruct (all_equal Z.eqb n1 n2) as [[]|]; [discriminate| |destruct E as [_ ->]; auto].
  apply dbind_state in E. destruct E as (o & g1 & H1 & E). unfold dres in H1. injection H1 as <- <-. destruct (aop_same Z.sub n2 n1 zs S2 S1) as (c & Ec & Sc & _). rewrite Ec in E. apply dbind_state in E. destruct E as (o & g1 & H1 & E). destruct o as [k|e1].
  - destruct (Bi _ _ _ _ _ _ H1 eq_refl) as [Sk _]. apply dbind_state in E. destruct E as (o & g2 & H2 & E). unfold dres in H2. injection H2 as <- <-. destruct (aop_same Z.add n1 k zs S1 (eq_trans Sk Sc)) as (c2 & Ec2 & _). rewrite Ec2 in E. discriminate.
  - destruct E as [_ ->]. apply (proj2 (proj2 (proj2 Tr)) _ _ _ _ _ _ H1).
Qed.
Lemma prob_step s st : inv_prob st -> inv_prob (snd (ret s st)).
Proof using Po Bi rtol_pos Tr CanL.
  intros [Wf Pr]. destruct st as [m g]. cbn [fst snd] in *. destruct (ret s (m, g)) as [o [m' g']] eqn:E. cbn [snd fst]. split; [apply (query_wf id out ins rtol zs _ dis rtol_pos _ _ _ _ _ _ Wf E)|]. cbn [fst snd].
  destruct Wf as (Nm & S & F). destruct (sorted_split m s S) as (l1 & l2 & -> & F1 & F2). destruct l1 as [|p1 l1'].
  - destruct l2 as [|[t2 z2] l3]; [elim Nm; auto|]. cbn [app] in *. destruct (memory_snoc ((t2, z2) :: l3)) as (l & [tl zl] & El); [discriminate|]. rewrite (retrieve1_start _ _ _ _ t2 z2 l3 l tl zl s g F2 El) in E. destruct (isclose rtol s tl); [congruence|]. assert (X := Forall_inv F). cbn [snd] in X.
    destruct (out z2 t2 s g) as [[[z2' zn]|e] g1] eqn:EO; injection E as <- <- <-; [|rewrite (out_fail _ _ _ _ _ _ EO X); auto]. destruct (outside_prob _ _ _ _ _ _ _ EO X) as (-> & _ & _ & Q). rewrite (Q (Forall_inv F2)), Pr, prob_start. auto.
  - destruct (memory_snoc (p1 :: l1')) as (l & [tk zk] & El); [discriminate|]. rewrite El in *. clear p1 l1' El. assert (Lk : tk <= s) by (apply Forall_app in F1; destruct F1 as [_ F1]; inversion F1; auto). destruct l2 as [|[t2 z2] l3].
    + rewrite app_nil_r in *. rewrite retrieve1_end in E by auto. destruct (isclose rtol s tk) eqn:C; [congruence|]. apply Forall_app in F. destruct F as [_ F]. assert (X := Forall_inv F). cbn [snd] in X. assert (Lt : tk < s) by (apply (not_close_lt rtol rtol_pos); auto; apply isclose_R_false; auto).
      destruct (out zk tk s g) as [[[zk' zn]|e] g1] eqn:EO; injection E as <- <- <-; [|rewrite (out_fail _ _ _ _ _ _ EO X); auto]. destruct (outside_prob _ _ _ _ _ _ _ EO X) as (-> & _ & Q & _). rewrite (Q Lt), Pr, prob_end. auto.
    + rewrite <- app_assoc in *. cbn [app] in *. rewrite retrieve1_between in E by auto. destruct (isclose rtol s tk) eqn:C; [congruence|]. apply Forall_app in F. destruct F as [_ F]. assert (X1 := Forall_inv F). assert (X2 := Forall_inv (Forall_inv_tail F)). cbn [snd] in X1, X2. assert (Lt : tk < s) by (apply (not_close_lt rtol rtol_pos); auto; apply isclose_R_false; auto). assert (L2 : s < t2) by apply (Forall_inv F2).
      destruct (ins zk z2 tk t2 s g) as [[[zk' [zn|]]|e] g1] eqn:EO; injection E as <- <- <-; [| |rewrite (in_fail _ _ _ _ _ _ _ _ EO X1 X2); auto].
      * destruct (dis_inside _ _ _ _ _ dis _ _ _ _ _ _ _ _ _ EO X1 X2) as [-> _]. destruct (C24_arguments _ _ _ _ _ _ _ _ _ X1 X2 EO) as [[Q _]|(n & k & N & Q & HN & Ek & Hn)]; [discriminate|]. injection Q as <-.
        destruct Hn as [_ Hn']. rewrite (proj1 (proj2 (proj2 Tr)) _ _ _ _ _ _ Ek), Pr, prob_mid by lra. f_equal. apply product_ext. intros ix I. apply in_ndindex in I. rewrite HN, Hn' by auto. f_equal. lia.
      * destruct (dis_inside _ _ _ _ _ dis _ _ _ _ _ _ _ _ _ EO X1 X2) as [-> _]. unfold poisson_inside in EO. apply dbind_ok in EO. destruct EO as (b & g3 & H1 & EO). apply dres_ok in H1. destruct H1 as [H1 ->]. destruct b; [apply dret_ok in EO; destruct EO as [_ ->]; auto|].
        apply dbind_ok in EO. destruct EO as (N' & g4 & H2 & EO). apply dbind_ok in EO. destruct EO as (k' & g5 & H3 & EO). apply dbind_ok in EO. destruct EO as (w & g6 & H4 & EO). apply dret_ok in EO. destruct EO as [EO _]. discriminate.
Qed.
Lemma keeps_call t dt : agreeing inv_prob (eval t dt) (eval t dt).
Proof using Po Bi rtol_pos Tr CanL.
  assert (Rt : forall s, agreeing inv_prob (retrieve id out ins rtol 0%Z zs s) (retrieve id out ins rtol 0%Z zs s)).
  { intro s. unfold retrieve. apply agreeing_bind; [|intro; apply (agreeing_pure inv_prob (Ok (assembled 0%Z (shp s) zs a)))]. apply agreeing_each. intro i. apply agreeing_bind; [|intro; apply agreeing_pure]. intros st I. split; auto. apply prob_step; auto. }
  unfold true_poisson, true_call. fold zs. destruct dt as [dt|]; [|apply Rt]. apply agreeing_bind; [apply agreeing_pure|]. intros [t' dt']. apply agreeing_bind; [apply agreeing_pure|]. intro s. apply agreeing_bind; [apply Rt|]. intro x. apply agreeing_bind; [apply Rt|]. intro y. apply agreeing_pure.
Qed.
(** the probability of all draws made, by evaluations in any order, is the probability that a Poisson process takes the stored values *)
Theorem C24_joint t0 z0 m0 g0 calls : true_new id zs t0 z0 = Ok m0 -> W g0 = 1 ->
  let st := snd (run (fun c => eval (fst c) (snd c)) calls (m0, g0)) in W (snd st) = memory_prob (fst st).
Proof using Po Bi rtol_pos Tr CanL.
  intros Start W0. destruct (start_state id zs id (fun x => eq_refl) t0 z0 m0 Start) as [E Wf].
  assert (I : inv_prob (m0, g0)). { split; auto. cbn [fst snd]. rewrite W0, E. unfold S_true.memory_prob, entry_path. cbn [map increments_prob]. symmetry. unfold product. induction (ndindex zs); simpl; [auto|]. rewrite IHl. ring. }
  clear Start W0 E Wf. revert I. generalize (m0, g0). induction calls as [|c l IH]; intros st I; [apply I|]. cbn [run]. destruct (keeps_call (fst c) (snd c) st I) as [_ J]. destruct (eval (fst c) (snd c) st) as [r st1]. cbn [snd] in J. specialize (IH st1 J). destruct (run _ l st1) as [rs st2]. exact IH.
Qed.
End Poisson.

(** *** evaluations do not fail *)
Definition succeeding {S A} (Inv : S -> Prop) (Q : A -> Prop) (c : S -> res A * S) : Prop := forall st, Inv st -> exists a st', c st = (Ok a, st') /\ Inv st' /\ Q a.
Lemma succeeding_bind {S A B} (Inv : S -> Prop) (P : A -> Prop) (Q : B -> Prop) c f : succeeding Inv P c -> (forall a, P a -> succeeding Inv Q (f a)) -> succeeding Inv Q (dbind c f).
Proof. intros H1 H2 st I. destruct (H1 st I) as (a & st1 & E & J & Pa). destruct (H2 a Pa st1 J) as (b & st2 & E2 & K & Qb). exists b, st2. unfold dbind. rewrite E. auto. Qed.
Lemma succeeding_pure {S A} (Inv : S -> Prop) (Q : A -> Prop) a (r : res A) : r = Ok a -> Q a -> succeeding Inv Q (dres r).
Proof. intros -> H st I. exists a, st. auto. Qed.
Lemma succeeding_each {S A I} (Inv : S -> Prop) (f : I -> S -> res A * S) l : (forall i, succeeding Inv (fun _ => True) (f i)) -> succeeding Inv (fun _ => True) (each f l).
Proof.
  intro H. induction l as [|i l IH]; [apply (succeeding_pure Inv _ [] (Ok [])); auto|]. cbn [each]. apply succeeding_bind with (P := fun _ => True); auto. intros b _. apply succeeding_bind with (P := fun _ => True); auto. intros r _. apply (succeeding_pure Inv _ ((i, b) :: r) (Ok ((i, b) :: r))); auto.
Qed.
Section Succeeds.
Context {G : Type}.
Variable poisson : arr R -> list nat -> G -> res (arr Z) * G.
Variable binomial : arr Z -> R -> list nat -> G -> res (arr Z) * G.
Variables (paths : nat) (vshape : list nat) (lam : param R).
Hypothesis Po : poisson_ok poisson.
Hypothesis Bi : binomial_ok binomial.
Hypothesis Bt : binomial_total binomial.
Let zs := vshape ++ [paths].
Hypothesis Lam : intensity_ok zs lam.
Variable rtol : R.
Hypothesis rtol_pos : 0 <= rtol.
Local Notation out := (poisson_outside poisson paths vshape lam).
Local Notation ins := (poisson_inside binomial).
Local Notation dis := (poisson_disciplined poisson binomial paths vshape lam Po Bi).
Local Notation ret := (retrieve1 (fun n : arr Z => n) out ins rtol).
Local Notation eval := (true_poisson poisson binomial paths vshape lam rtol).
Local Notation id := (fun n : arr Z => n).
Local Notation inv := (inv_counts paths vshape).
Lemma all_equal_total (a b : arr Z) s : shp a = s -> shp b = s -> exists e, all_equal Z.eqb a b = Ok e.
Proof. intros E1 E2. unfold all_equal. destruct (aop_same Z.eqb a b s E1 E2) as (c & -> & _). cbv beta iota delta [rbind]. eauto. Qed.
Lemma out_succeeds n t s g : shp n = zs -> exists r g', out n t s g = (Ok r, g').
Proof using Po Lam.
  intro S. destruct (C26_poisson_succeeds poisson paths vshape lam (ascalar t) (ascalar (s - t)) g [] Po eq_refl) as (d & g' & E); [intros; apply Lam|]. assert (Sd := poisson_call_shape poisson paths vshape lam Po _ _ _ _ _ E). destruct (aop_same Z.add n d zs S Sd) as (c & Ec & _).
  exists (n, c), g'. unfold poisson_outside, dbind, dres, dret. change (nsub (V := R)) with Rminus. rewrite E, Ec. auto.
Qed.
Lemma ins_succeeds n1 n2 t1 t2 s g : shp n1 = zs -> shp n2 = zs -> counts_le zs n1 n2 -> t1 < s < t2 -> exists r g', ins n1 n2 t1 t2 s g = (Ok r, g').
Proof using Bi Bt.
  intros S1 S2 Le L. unfold poisson_inside, dbind, dres, dret. destruct (all_equal_total n1 n2 zs S1 S2) as (b & ->). destruct b; [eauto|]. destruct (aop_same Z.sub n2 n1 zs S2 S1) as (n & -> & Sn & Hn). change (nsub (V := R)) with Rminus. change (ndiv (V := R)) with Rdiv.
  destruct (Bt n ((s - t1)/(t2 - t1)) (shp n) g) as (k & g' & E).
  - split; auto. split; [|intros ix I; rewrite Sn in I; rewrite Hn by auto; specialize (Le ix I); lia]. split; [apply Rmult_lt_0_compat; [lra|apply Rinv_0_lt_compat; lra]|]. apply (Rmult_lt_reg_r (t2 - t1)); [lra|]. replace ((s - t1)/(t2 - t1) * (t2 - t1)) with (s - t1) by (field; lra). lra.
  - rewrite E. destruct (Bi _ _ _ _ _ _ E eq_refl) as [Sk _]. destruct (aop_same Z.add n1 k zs S1 (eq_trans Sk Sn)) as (w & -> & _). eauto.
Qed.
Lemma ret_succeeds s : succeeding inv (fun v : arr Z => shp v = zs) (ret s).
Proof using Po Bi Bt Lam rtol_pos.
  intros st I. assert (J := counts_step poisson binomial paths vshape lam Po Bi rtol rtol_pos s st I). destruct st as [m g]. destruct (ret s (m, g)) as [o [m' g']] eqn:E. cbn [snd] in J. assert (W := proj1 I). cbn [fst] in W. destruct o as [v|e].
  - exists v, (m', g'). split; auto. split; auto. apply (query_shape _ _ _ _ _ _ dis _ _ _ _ _ _ W E).
  - exfalso. destruct I as [(Nm & S & F) Ri]. cbn [fst] in *. destruct (sorted_split m s S) as (l1 & l2 & -> & F1 & F2). destruct l1 as [|p1 l1'].
    + destruct l2 as [|[t2 z2] l3]; [elim Nm; auto|]. cbn [app] in *. destruct (memory_snoc ((t2, z2) :: l3)) as (l & [tl zl] & El); [discriminate|]. rewrite (retrieve1_start _ _ _ _ t2 z2 l3 l tl zl s g F2 El) in E. destruct (isclose rtol s tl); [congruence|]. destruct (out_succeeds z2 t2 s g (Forall_inv F)) as ([z2' zn] & g1 & EO). rewrite EO in E. discriminate.
    + destruct (memory_snoc (p1 :: l1')) as (l & [tk zk] & El); [discriminate|]. rewrite El in *. clear p1 l1' El. assert (Lk : tk <= s) by (apply Forall_app in F1; destruct F1 as [_ F1]; inversion F1; auto). destruct l2 as [|[t2 z2] l3].
      * rewrite app_nil_r in *. rewrite retrieve1_end in E by auto. destruct (isclose rtol s tk) eqn:C; [congruence|]. apply Forall_app in F. destruct F as [_ F]. destruct (out_succeeds zk tk s g (Forall_inv F)) as ([z2' zn] & g1 & EO). rewrite EO in E. discriminate.
      * rewrite <- app_assoc in *. cbn [app] in *. rewrite retrieve1_between in E by auto. destruct (isclose rtol s tk) eqn:C; [congruence|]. apply Forall_app in F. destruct F as [_ F]. assert (X1 := Forall_inv F). assert (X2 := Forall_inv (Forall_inv_tail F)). cbn [snd] in X1, X2.
        assert (Lt : tk < s) by (apply (not_close_lt rtol rtol_pos); auto; apply isclose_R_false; auto). assert (L2 : s < t2) by apply (Forall_inv F2).
        assert (Lz : counts_le zs zk z2). { apply rising_app in Ri. destruct Ri as (_ & Ri & _). inversion Ri as [|? ? _ Q]; subst. apply (Forall_inv Q). }
        destruct (ins_succeeds zk z2 tk t2 s g X1 X2 Lz (conj Lt L2)) as ([z2' [zn|]] & g1 & EO); rewrite EO in E; discriminate.
Qed.
Lemma call_succeeds c : well_shaped c -> succeeding inv (fun _ : arr Z => True) (eval (fst c) (snd c)).
Proof using Po Bi Bt Lam rtol_pos.
  assert (Rt : forall s, succeeding inv (fun v : arr Z => shp v = shp s ++ zs) (retrieve id out ins rtol 0%Z zs s)).
  { intro s. unfold retrieve. apply succeeding_bind with (P := fun _ => True).
    - apply succeeding_each. intro i. apply succeeding_bind with (P := fun v : arr Z => shp v = zs); [apply ret_succeeds|]. intros v Sv. destruct (broadcast_shape zs v Sv) as (u & E & _). apply (succeeding_pure inv _ u); auto.
    - intros l _. apply (succeeding_pure inv _ (assembled 0%Z (shp s) zs l) (Ok (assembled 0%Z (shp s) zs l))); auto. }
  destruct c as [t [dt|]]; unfold well_shaped, true_poisson, true_call; cbn [fst snd]; intro W; fold zs.
  - destruct (bshape (shp t) (shp dt)) as [w|] eqn:B; [|tauto]. apply succeeding_bind with (P := fun p => p = (mkArr w (bget t), mkArr w (bget dt))); [apply (succeeding_pure inv _ (mkArr w (bget t), mkArr w (bget dt))); auto; unfold broadcast2; rewrite B; auto|]. intros p ->.
    destruct (aop_same nadd (mkArr w (bget t)) (mkArr w (bget dt)) w eq_refl eq_refl) as (s & Es & Ss & _). apply succeeding_bind with (P := fun x => x = s); [apply (succeeding_pure inv _ s); auto|]. intros x ->.
    apply succeeding_bind with (P := fun v : arr Z => shp v = w ++ zs); [rewrite <- Ss; apply Rt|]. intros x Sx. apply succeeding_bind with (P := fun v : arr Z => shp v = w ++ zs); [apply (Rt (mkArr w (bget t)))|]. intros y Sy. destruct (aop_same Z.sub x y _ Sx Sy) as (v & Ev & _). apply (succeeding_pure inv _ v); auto.
  - intros st I. destruct (Rt t st I) as (a & st' & E & J & _). exists a, st'. auto.
Qed.
(** evaluations do not fail, save for arguments that do not broadcast *)
Theorem C23_succeeds t0 z0 m0 g0 calls : true_new id zs t0 z0 = Ok m0 -> Forall2 (fun c r => well_shaped c -> exists n, r = Ok n) calls (fst (run (fun c => eval (fst c) (snd c)) calls (m0, g0))).
Proof using Po Bi Bt Lam rtol_pos.
  intro Start. enough (K : forall st, inv st -> Forall2 (fun c r => well_shaped c -> exists n, r = Ok n) calls (fst (run (fun c => eval (fst c) (snd c)) calls st))) by apply (K _ (counts_start paths vshape t0 z0 m0 Start g0)).
  clear Start. induction calls as [|c l IH]; intros st I; [constructor|]. cbn [run].
  destruct (call_agrees poisson binomial paths vshape lam Po Bi rtol rtol_pos binomial (fst c) (snd c) (fun _ _ _ _ _ => eq_refl) st I) as [_ J]. destruct (eval (fst c) (snd c) st) as [r st1] eqn:E. cbn [snd] in J. specialize (IH st1 J). destruct (run _ l st1) as [rs st2]. constructor; auto. intro W. destruct (call_succeeds c W st I) as (a & st' & E' & _). exists a. congruence.
Qed.
End Succeeds.

(** *** an example: counts taken from a list, along with their probability *)
Definition tape : Type := R * list nat.
Definition ptape (L : arr R) (s : list nat) (g : tape) : res (arr Z) * tape :=
  let k := Z.of_nat (hd 0%nat (snd g)) in (Ok (mkArr s (fun _ => k)), (fst g * product (map (fun ix => poisson_pmf (bget L ix) k) (ndindex s)), tl (snd g))).
Definition btape (N : arr Z) (p : R) (s : list nat) (g : tape) : res (arr Z) * tape :=
  if forallb (fun ix => (0 <=? dat N ix)%Z) (ndindex s) then
    let k := fun ix => Z.min (dat N ix) (Z.of_nat (hd 0%nat (snd g))) in
    (Ok (mkArr s k), (fst g * product (map (fun ix => binomial_pmf (dat N ix) p (k ix)) (ndindex s)), tl (snd g)))
  else (Err ValueError, g).
Lemma ptape_ok : poisson_ok ptape.
Proof. intros L s g. split; [intros; unfold ptape; eauto|]. intros n g' E. unfold ptape in E. injection E as <- _. split; auto. intros. cbn [dat]. lia. Qed.
Lemma btape_ok : binomial_ok btape.
Proof.
  intros n p s g k g' E S. unfold btape in E. destruct (forallb _ _) eqn:F; [|discriminate]. injection E as <- _. split; auto. intros ix I. cbn [dat]. rewrite forallb_forall in F. specialize (F ix). rewrite in_ndindex in F. specialize (F I). apply Z.leb_le in F. lia.
Qed.
Lemma btape_total : binomial_total btape.
Proof.
  intros n p s g (S & _ & H). unfold btape. replace (forallb (fun ix => (0 <=? dat n ix)%Z) (ndindex s)) with true; [eauto|]. symmetry. apply forallb_forall. intros ix I. apply in_ndindex in I. apply Z.leb_le. auto.
Qed.
Lemma tape_tracks : tracks ptape btape fst.
Proof.
  split; [|split; [|split]].
  - intros L s g n g' E. unfold ptape in E. injection E as <- <-. reflexivity.
  - intros L s g e g' E. discriminate.
  - intros N p s g k g' E. unfold btape in E. destruct (forallb _ _); [|discriminate]. injection E as <- <-. reflexivity.
  - intros N p s g e g' E. unfold btape in E. destruct (forallb _ _); [discriminate|]. congruence.
Qed.
Local Notation P := (true_poisson ptape btape 1 [] (PArr (ascalar 2)) 0).
Definition nstart : arr Z := mkArr [1%nat] (bget (ascalar 0%Z)).
(** evaluations at 4, at 1 and at -1, of an intensity 2: 5 events from 0 to 4, 2 of which before 1, and 3 events from -1 to 0 *)
Lemma stored_counts : exists x4 st4 x1 st1 xm stm nm n1 n4, P (ascalar 4) None ([(0, nstart)], (1, [5; 2; 3]%nat)) = (Ok x4, st4) /\ P (ascalar 1) None st4 = (Ok x1, st1) /\ P (ascalar (-1)) None st1 = (Ok xm, stm) /\
  fst stm = [(-1, nm); (0, nstart); (1, n1); (4, n4)] /\ snd (snd stm) = [] /\ dat nm [0%nat] = (-3)%Z /\ dat n1 [0%nat] = 2%Z /\ dat n4 [0%nat] = 5%Z /\ dat x4 [0%nat] = 5%Z /\ dat x1 [0%nat] = 2%Z /\ dat xm [0%nat] = (-3)%Z.
Proof.
  set (L := ascalar 2). set (out := poisson_outside ptape 1 [] (PArr L)). set (ins := poisson_inside btape).
  assert (C0 : forall s t, s <> t -> isclose 0 s t = false). { intros s t Hs. apply isclose_R_false. unfold close. rewrite Rmult_0_l. intro Q. assert (Rabs (s - t) = 0) by (pose proof (Rabs_pos (s - t)); lra). destruct (Req_dec (s - t) 0); [lra|]. apply Rabs_no_R0 in H0. lra. }
  assert (Out : forall n t s w tp, shp n = [1%nat] -> exists n' w', out n t s (w, tp) = (Ok (n, n'), (w', tl tp)) /\ shp n' = [1%nat] /\ (t < s -> dat n' [0%nat] = (dat n [0%nat] + Z.of_nat (hd 0%nat tp))%Z) /\ (s < t -> dat n' [0%nat] = (dat n [0%nat] - Z.of_nat (hd 0%nat tp))%Z)).
  { intros n t s w tp Sn. unfold out. assert (Lam : intensity_ok [1%nat] (PArr L)). { intro u. exists L. split; auto. split; auto. intros r _. cbn [L ascalar dat]. lra. }
    destruct (C26_poisson_succeeds ptape 1 [] (PArr L) (ascalar t) (ascalar (s - t)) (w, tp) [] ptape_ok eq_refl ltac:(intros; apply Lam)) as (d & [w' tp'] & E). assert (Sd := poisson_call_shape ptape 1 [] (PArr L) ptape_ok _ _ _ _ _ E).
    destruct (C26_poisson ptape 1 [] (PArr L) (ascalar t) (ascalar (s - t)) (w, tp) [] d _ ptape_ok eq_refl E) as (_ & ns & T & D). cbn [ndindex] in T. inversion T as [|i l ga b gb r gc E1 T2]; subst. inversion T2; subst. cbn [intensity] in E1. unfold ptape in E1. injection E1 as <- <- <-.
    destruct (aop_same Z.add n d [1%nat] Sn Sd) as (n' & En & Sn' & Hn'). exists n'. eexists. split; [unfold poisson_outside, dbind, dres, dret; change (nsub (V := R)) with Rminus; rewrite E, En; reflexivity|]. split; auto.
    assert (I : inb [1%nat] [0%nat]) by (constructor; [lia|constructor]). destruct (D [] _ [0%nat] (or_introl eq_refl) I) as [_ X]. cbn [app] in X. rewrite Hn' by auto. rewrite X. unfold bget. cbn [ascalar dat shp]. split; intro Lt; destruct (Rlt_dec 0 (s - t)); try lra; [cbn; lia|]. destruct (Rlt_dec (s - t) 0); [cbn; lia|lra]. }
  assert (I : inb [1%nat] [0%nat]) by (constructor; [lia|constructor]).
  destruct (Out nstart 0 4 1 [5; 2; 3]%nat eq_refl) as (n4 & w4 & E4 & S4 & H4 & _). specialize (H4 ltac:(lra)).
  destruct (eval_scalar (fun n : arr Z => n) out ins 0 [1%nat] Z.sub 0%Z 4 ([(0, nstart)], (1, [5; 2; 3]%nat)) n4 ([(0, nstart); (4, n4)], (w4, [2; 3]%nat))) as (x4 & Ex4 & A4); auto.
  { pose proof (retrieve1_end (fun n : arr Z => n) out ins 0 [] 0 nstart 4 (1, [5; 2; 3]%nat)) as Q. cbn [app] in Q. refine (eq_trans (Q _) _); [constructor; [simpl; lra|constructor]|]. rewrite C0, E4 by lra. reflexivity. }
  assert (V4 : dat n4 [0%nat] = 5%Z) by (rewrite H4; reflexivity).
  assert (In1 : exists n1 w1, ins nstart n4 0 4 1 (w4, [2; 3]%nat) = (Ok (nstart, Some n1), (w1, [3%nat])) /\ shp n1 = [1%nat] /\ dat n1 [0%nat] = 2%Z).
  { unfold ins, poisson_inside, dbind at 1, dres at 1. assert (X : all_equal Z.eqb nstart n4 = Ok false).
    { destruct (all_equal_total nstart n4 [1%nat] eq_refl S4) as ([] & X); auto. pose proof (proj1 (all_equal_spec Z.eqb nstart n4 [1%nat] eq_refl S4) X [0%nat] I) as Y. rewrite V4 in Y. discriminate. }
    rewrite X. destruct (aop_same Z.sub n4 nstart [1%nat] S4 eq_refl) as (n & En & Sn & Hn). unfold dbind at 1, dres at 1. rewrite En. unfold dbind at 1, btape. rewrite Sn. change (ndindex [1%nat]) with [[0%nat]]. cbn [forallb]. rewrite Hn, V4 by auto. change (0 <=? 5 - dat nstart [0%nat])%Z with true. cbn [andb snd hd].
    match goal with |- context [aop Z.add nstart ?k] => destruct (aop_same Z.add nstart k [1%nat] eq_refl eq_refl) as (n1 & En1 & Sn1 & Hn1) end. unfold dbind, dres, dret. rewrite En1. exists n1. eexists. split; [reflexivity|]. split; auto. rewrite Hn1 by auto. cbn [dat]. rewrite Hn, V4 by auto. reflexivity. }
  destruct In1 as (n1 & w1 & E1 & S1 & V1).
  destruct (eval_scalar (fun n : arr Z => n) out ins 0 [1%nat] Z.sub 0%Z 1 ([(0, nstart); (4, n4)], (w4, [2; 3]%nat)) n1 ([(0, nstart); (1, n1); (4, n4)], (w1, [3]%nat))) as (x1 & Ex1 & A1); auto.
  { pose proof (retrieve1_between (fun n : arr Z => n) out ins 0 [] 0 nstart 4 n4 [] 1 (w4, [2; 3]%nat)) as Q. cbn [app] in Q. refine (eq_trans (Q _ _) _); [constructor; [simpl; lra|constructor]|repeat (constructor; [simpl; lra|]); constructor|]. rewrite C0, E1 by lra. reflexivity. }
  destruct (Out nstart 0 (-1) w1 [3]%nat eq_refl) as (nm & wm & Em & Sm & _ & Hm). specialize (Hm ltac:(lra)).
  destruct (eval_scalar (fun n : arr Z => n) out ins 0 [1%nat] Z.sub 0%Z (-1) ([(0, nstart); (1, n1); (4, n4)], (w1, [3]%nat)) nm ([(-1, nm); (0, nstart); (1, n1); (4, n4)], (wm, []))) as (xm & Exm & Am); auto.
  { refine (eq_trans (retrieve1_start (fun n : arr Z => n) out ins 0 0 nstart [(1, n1); (4, n4)] [(0, nstart); (1, n1)] 4 n4 (-1) (w1, [3%nat]) _ eq_refl) _); [repeat (constructor; [simpl; lra|]); constructor|]. rewrite C0, Em by lra. reflexivity. }
  assert (Vm : dat nm [0%nat] = (-3)%Z) by (rewrite Hm; reflexivity).
  exists x4, ([(0, nstart); (4, n4)], (w4, [2; 3]%nat)), x1, ([(0, nstart); (1, n1); (4, n4)], (w1, [3]%nat)), xm, ([(-1, nm); (0, nstart); (1, n1); (4, n4)], (wm, [])), nm, n1, n4.
  split; [exact Ex4|]. split; [exact Ex1|]. split; [exact Exm|]. do 2 (split; [reflexivity|]). do 3 (split; [auto|]).
  destruct A4 as [T4 A4]. destruct A1 as [T1 A1]. destruct Am as [Tm Am]. rewrite A4, A1, Am by (rewrite ?T4, ?T1, ?Tm, ?S4, ?S1, ?Sm; auto). auto.
Qed.
Example C23_ex : exists x4 st4 x1 st1 xm stm, P (ascalar 4) None ([(0, nstart)], (1, [5; 2; 3]%nat)) = (Ok x4, st4) /\ P (ascalar 1) None st4 = (Ok x1, st1) /\ P (ascalar (-1)) None st1 = (Ok xm, stm) /\
  dat x4 [0%nat] = 5%Z /\ dat x1 [0%nat] = 2%Z /\ dat xm [0%nat] = (-3)%Z.
Proof. destruct stored_counts as (x4 & st4 & x1 & st1 & xm & stm & nm & n1 & n4 & E4 & E1 & Em & _ & _ & _ & _ & _ & V4 & V1 & Vm). exists x4, st4, x1, st1, xm, stm. auto 10. Qed.
(** the probability of these draws is that of 3, 2 and 3 events in the intervals between the times -1, 0, 1, 4 *)
Example C24_ex : exists stm, snd (run (fun c => P (fst c) (snd c)) [(ascalar 4, None); (ascalar 1, None); (ascalar (-1), None)] ([(0, nstart)], (1, [5; 2; 3]%nat))) = stm /\
  map fst (fst stm) = [-1; 0; 1; 4] /\ fst (snd stm) = poisson_pmf 2 3 * (poisson_pmf 2 2 * poisson_pmf 6 3).
Proof.
  destruct stored_counts as (x4 & st4 & x1 & st1 & xm & stm & nm & n1 & n4 & E4 & E1 & Em & Fm & _ & Vm & V1 & V4 & _). exists stm.
  assert (Q : run (fun c => P (fst c) (snd c)) [(ascalar 4, None); (ascalar 1, None); (ascalar (-1), None)] ([(0, nstart)], (1, [5; 2; 3]%nat)) = ([Ok x4; Ok x1; Ok xm], stm)).
  { apply (run_step _ (ascalar 4, None) _ _ _ _ _ _ E4). apply (run_step _ (ascalar 1, None) _ _ _ _ _ _ E1). apply (run_step _ (ascalar (-1), None) _ _ _ _ _ _ Em). reflexivity. }
  apply (f_equal snd) in Q. cbn [snd] in Q. split; [exact Q|]. split; [rewrite Fm; reflexivity|].
  pose proof (C24_joint ptape btape 1 [] btape_ok (ascalar 2) eq_refl ptape_ok 0 (Rle_refl 0) fst tape_tracks 0 (ascalar 0%Z) [(0, nstart)] (1, [5; 2; 3]%nat) [(ascalar 4, None); (ascalar 1, None); (ascalar (-1), None)] eq_refl eq_refl) as J. cbv zeta in J. assert (J' : fst (snd stm) = memory_prob [1%nat] (ascalar 2) (fst stm)) by (rewrite <- Q; exact J). rewrite J', Fm.
  unfold memory_prob, entry_path. cbn [app]. change (ndindex [1%nat]) with [[0%nat]]. cbn [map fst snd increments_prob product fold_right]. rewrite Vm, V1, V4. change (dat nstart [0%nat]) with 0%Z. replace (bget (ascalar 2) [0%nat]) with 2 by reflexivity.
  replace (2 * (0 - -1)) with 2 by ring. replace (2 * (1 - 0)) with 2 by ring. replace (2 * (4 - 1)) with 6 by ring. change (0 - -3)%Z with 3%Z. change (2 - 0)%Z with 2%Z. change (5 - 2)%Z with 3%Z. ring.
Qed.
Example C24_split_ex : poisson_pmf (2 * (4 - 0)) 5 * binomial_pmf 5 ((1 - 0)/(4 - 0)) 2 = poisson_pmf 2 2 * poisson_pmf 6 3 /\ binomial_pmf 5 (1/4) 2 = 270/1024.
Proof.
  split.
  - rewrite (C24_split 2 0 4 1 5 2) by lra. f_equal; f_equal; lra.
  - unfold binomial_pmf. change ((0 <=? 2) && (2 <=? 5))%Z with true. cbv iota. change (Z.to_nat 5) with 5%nat. change (Z.to_nat 2) with 2%nat. change (Z.to_nat (5 - 2)) with 3%nat. cbn [fact Nat.mul Nat.add]. rewrite !INR_IZR_INZ. simpl (Z.of_nat _). simpl pow. lra.
Qed.
Print Assumptions C23_counting.
Print Assumptions C23_unchanged.
Print Assumptions C23_values.
Print Assumptions C23_trials.
Print Assumptions C23_succeeds.
Print Assumptions C24_split.
Print Assumptions C24_poisson_total.
Print Assumptions C24_binomial_total.
Print Assumptions C24_arguments.
Print Assumptions C24_joint.
