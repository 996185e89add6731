(** Brownian motion by true_wiener_source: what a query does to the values stored, as linear combinations of draws. *)
From Coq Require Import List Arith Bool Lia ZArith Reals Lra Sorted.
From Verif Require Import Base BaseNum BaseArr BaseNd BaseIdx M_process M_source M_true S_process S_source S_mc S_true L_nd L_sdes L_process L_process2 L_source L_true L_true2 L_true3 P_source P_source2.
Import ListNotations.
Local Open Scope R_scope.

(** *** sums *)
Lemma lincomb_S n c x : lincomb (S n) c x = lincomb n c x + c n * x n.
Proof. exact (sumn_S (fun i => c i * x i) n). Qed.
Lemma lincomb_ext n c x c' x' : (forall i, (i < n)%nat -> c i = c' i) -> (forall i, (i < n)%nat -> x i = x' i) -> lincomb n c x = lincomb n c' x'.
Proof. intros H1 H2. apply (sumn_ext (fun i => c i * x i) (fun i => c' i * x' i)). intros i L. rewrite H1, H2; auto. Qed.
Lemma lincomb_comm n c x : lincomb n c x = lincomb n x c.
Proof. apply (sumn_ext (fun i => c i * x i) (fun i => x i * c i)). intros; ring. Qed.
Lemma lincomb_add n a b c c' x : lincomb n (fun i => a * c i + b * c' i) x = a * lincomb n c x + b * lincomb n c' x.
Proof. induction n; [unfold lincomb; simpl; ring|]. rewrite !lincomb_S, IHn. ring. Qed.

(** *** the kernel *)
Lemma brownian_cov_sym t0 s t : brownian_cov t0 s t = brownian_cov t0 t s.
Proof. unfold brownian_cov. destruct (Rle_dec t0 s), (Rle_dec t0 t); auto; apply Rmin_comm. Qed.
Ltac kern := unfold brownian_cov; repeat match goal with |- context [Rle_dec ?a ?b] => destruct (Rle_dec a b) end; unfold Rmin; repeat match goal with |- context [Rle_dec ?a ?b] => destruct (Rle_dec a b) end; try lra.
(** same value at two points beyond u, seen from t0 *)
Lemma kernel_far t0 t s u : (t0 <= t <= s /\ u <= t) \/ (s <= t <= t0 /\ t <= u) -> brownian_cov t0 s u = brownian_cov t0 t u.
Proof. intros. kern. Qed.
Lemma kernel_self t0 s : brownian_cov t0 s s = Rabs (s - t0).
Proof. unfold Rabs. destruct (Rcase_abs (s - t0)); kern. Qed.
(** linear between two points that do not separate u *)
Lemma kernel_between t0 t1 t2 s u z : ((t0 <= t1 < s /\ s < t2) \/ (t2 < s /\ s < t1 <= t0)) -> z = (t2 - s)/(t2 - t1) -> ((u <= t1 /\ u <= t2) \/ (t2 <= u /\ t1 <= u)) ->
  brownian_cov t0 s u = z * brownian_cov t0 t1 u + (1 - z) * brownian_cov t0 t2 u.
Proof.
  intros H -> U. assert (E : (t2 - s)/(t2 - t1) * (t2 - t1) = t2 - s) by (field; lra). set (z := (t2 - s)/(t2 - t1)) in *.
  assert (S : s = z * t1 + (1 - z) * t2) by lra. clearbody z. kern; nra.
Qed.

Section Wiener.
Context {G : Type}.
Variable normal : list nat -> G -> res (arr R) * G.
Variable mvnormal : arr R -> list nat -> G -> res (arr R) * G.
Variable inv : arr R -> res (arr R).
Variables (paths : nat) (vshape : list nat) (corr : param R) (t0 : R).
Hypothesis N : normal_ok normal.
Hypothesis MN : mvnormal_ok mvnormal.
Hypothesis CC : constant_corr vshape corr.
Let zs := vshape ++ [paths].
Local Notation dW := (dw normal mvnormal paths vshape corr).
(** increments are unit increments, rescaled *)
Lemma dw_unit g : exists x g', dW 0 1 g = (Ok x, g') /\ shp x = zs /\
  forall t dt, exists d, dW t dt g = (Ok d, g') /\ shp d = zs /\ forall ix, inb zs ix -> dat d ix = sqrt (Rabs dt) * dat x ix.
Proof using N MN CC.
  unfold dw, zs. destruct CC as [->|(v & M & cov & -> & -> & C)].
  - destruct (C27_uncorrelated normal mvnormal paths vshape (ascalar 0) (ascalar 1) g [] N eq_refl) as (z & g' & x & Z1 & Z2 & Z3 & Z4). exists x, g'. split; auto. split; auto. intros t dt.
    destruct (C27_uncorrelated normal mvnormal paths vshape (ascalar t) (ascalar dt) g [] N eq_refl) as (z' & g1 & d & Y1 & Y2 & Y3 & Y4). rewrite Z1 in Y1. injection Y1 as <- <-. exists d. split; auto. split; auto. intros ix I.
    pose proof (Y4 [] ix ltac:(constructor) I) as Q1. pose proof (Z4 [] ix ltac:(constructor) I) as Q2. cbn [app] in Q1, Q2. rewrite Q1, Q2. unfold bget. cbn [ascalar dat shp]. rewrite Rabs_R1, sqrt_1. ring.
  - destruct (C27_constant normal mvnormal paths v M cov (ascalar 0) (ascalar 1) g [] MN eq_refl C) as (z & g' & x & Z1 & Z2 & Z3 & Z4). exists x, g'. rewrite <- app_assoc. split; auto. split; auto. intros t dt.
    destruct (C27_constant normal mvnormal paths v M cov (ascalar t) (ascalar dt) g [] MN eq_refl C) as (z' & g1 & d & Y1 & Y2 & Y3 & Y4). rewrite Z1 in Y1. injection Y1 as <- <-. exists d. split; auto. split; auto. intros ix I.
    cbn [app] in I. apply Forall2_app_inv_r in I. destruct I as (r & q & I1 & I2 & ->). inversion I2 as [|m ? q1 ? L1 I3]; subst. inversion I3 as [|j ? q2 ? L2 I4]; subst. inversion I4; subst.
    pose proof (Y4 [] r m j ltac:(constructor) I1 L1 L2) as Q1. pose proof (Z4 [] r m j ltac:(constructor) I1 L1 L2) as Q2. cbn [app] in Q1, Q2. rewrite Q1, Q2. unfold bget. cbn [ascalar dat shp]. rewrite Rabs_R1, sqrt_1. ring.
Qed.
Lemma corr_not_callable : param_call corr = None.
Proof using CC. destruct CC as [->|(v & M & cov & _ & -> & _)]; reflexivity. Qed.
Lemma nle_R (x y : R) : nle x y = true <-> x <= y.
Proof. unfold nle. rewrite negb_true_iff. apply nlt_R_false. Qed.
Lemma outside_step w t s g : shp w = zs -> (t0 <= t /\ t < s) \/ (s < t /\ t <= t0) -> exists x g', dW 0 1 g = (Ok x, g') /\ shp x = zs /\
  exists w', wiener_outside normal mvnormal paths vshape corr t0 w t s g = (Ok (w, w'), g') /\ shp w' = zs /\ forall ix, inb zs ix -> dat w' ix = dat w ix + sqrt (Rabs (s - t)) * dat x ix.
Proof using N MN CC.
  intros S H. destruct (dw_unit g) as (x & g' & E & Sx & D). exists x, g'. split; auto. split; auto. destruct (D t (s - t)) as (dd & Ed & Sd & Hd). destruct (aop_same nadd w dd zs S Sd) as (w' & E' & S' & H'). exists w'.
  split; [|split; auto].
  - unfold wiener_outside. replace ((nle t0 t && nlt t s) || (nlt s t && nle t t0)) with true.
    + rewrite corr_not_callable. unfold dbind, dret, dres. change (nsub s t) with (s - t). rewrite Ed, E'. reflexivity.
    + symmetry. apply orb_true_iff. rewrite !andb_true_iff, !nle_R, !nlt_R. auto.
  - intros ix I. rewrite H', Hd by auto. reflexivity.
Qed.
Lemma bridge_step w1 w2 t1 t2 s g : shp w1 = zs -> shp w2 = zs -> ((t0 <= t1 /\ t1 < s) /\ s < t2) \/ ((t2 < s /\ s < t1) /\ t1 <= t0) -> exists x g', dW 0 1 g = (Ok x, g') /\ shp x = zs /\
  exists w', wiener_bridge normal mvnormal inv paths vshape corr t0 w1 w2 t1 t2 s g = (Ok w', g') /\ shp w' = zs /\
    forall z, z = (t2 - s)/(t2 - t1) -> forall ix, inb zs ix -> dat w' ix = z * dat w1 ix + (1 - z) * dat w2 ix + sqrt (z * Rabs (s - t1)) * dat x ix.
Proof using N MN CC.
  intros S1 S2 H. destruct (dw_unit g) as (x & g' & E & Sx & D). exists x, g'. split; auto. split; auto. set (a := s - t1). set (b := t2 - s). set (z := b/(a + b)). destruct (D 0 (z * a)) as (dd & Ed & Sd & Hd).
  destruct (aop_same nadd (amap (nmul z) w1) (amap (nmul (nsub none z)) w2) zs S1 S2) as (w & Ew & Sw & Hw). destruct (aop_same nadd w dd zs Sw Sd) as (w' & E' & S' & H'). exists w'.
  split; [|split; auto].
  - unfold wiener_bridge. replace ((nle t0 t1 && nlt t1 s && nlt s t2) || (nlt t2 s && nlt s t1 && nle t1 t0)) with true.
    + rewrite corr_not_callable. unfold dbind. cbv zeta. change (nsub s t1) with a. change (nsub t2 s) with b. change (ndiv b (nadd a b)) with z. change (nmul z a) with (z * a). change (@nzero R _) with 0. rewrite Ed. unfold dres. rewrite Ew, E'. reflexivity.
    + symmetry. apply orb_true_iff. rewrite !andb_true_iff, !nle_R, !nlt_R. auto.
  - intros z' Ez ix I. rewrite H', Hw, Hd by auto. cbn [amap dat]. change (nmul (V := R)) with Rmult. change (nsub (V := R)) with Rminus. change (nadd (V := R)) with Rplus. change (@none R _) with 1.
    assert (z = z') as ->. { rewrite Ez. unfold z, a, b. f_equal. ring. }
    assert (P : 0 <= z') by (rewrite Ez; unfold b; destruct H as [H|H]; [apply Rmult_le_pos; [lra|left; apply Rinv_0_lt_compat; lra]|replace ((t2 - s)/(t2 - t1)) with ((s - t2)/(t1 - t2)) by (field; lra); apply Rmult_le_pos; [lra|left; apply Rinv_0_lt_compat; lra]]).
    rewrite Rabs_mult, (Rabs_right z') by lra. reflexivity.
Qed.

(** *** stored values as linear combinations of draws *)
Variable z0 : arr R.
Variable rtol : R.
Hypothesis rtol_pos : 0 <= rtol.
Local Notation ret := (retrieve1 (fun w : arr R => w) (wiener_outside normal mvnormal paths vshape corr t0) (wiener_inside normal mvnormal inv paths vshape corr t0) rtol).
Definition repr (n : nat) (x : nat -> arr R) (p : R * (nat -> R)) (q : R * arr R) : Prop :=
  fst p = fst q /\ shp (snd q) = zs /\ forall ix, inb zs ix -> dat (snd q) ix = bget z0 ix + lincomb n (snd p) (fun i => dat (x i) ix).
Definition rep (cs : list (R * (nat -> R))) n x (m : list (R * arr R)) : Prop := Forall2 (repr n x) cs m.
Record gram (cs : list (R * (nat -> R))) (n : nat) : Prop := {
  g_sorted : StronglySorted Rlt (map fst cs);
  g_start : In t0 (map fst cs);
  g_zero : forall p i, In p cs -> (n <= i)%nat -> snd p i = 0;
  g_cov : forall p q, In p cs -> In q cs -> lincomb n (snd p) (snd q) = brownian_cov t0 (fst p) (fst q) }.
Definition cset (c : nat -> R) (n : nat) (v : R) : nat -> R := fun i => if (i =? n)%nat then v else c i.
Definition xset (x : nat -> arr R) (n : nat) (v : arr R) : nat -> arr R := fun i => if (i =? n)%nat then v else x i.
Lemma repr_more n x y p q : (forall i, (n <= i)%nat -> snd p i = 0) -> repr n x p q -> repr (S n) (xset x n y) p q.
Proof.
  intros Z0 (E & S & H). split; auto. split; auto. intros ix I. rewrite lincomb_S, Z0, H by auto. rewrite Rmult_0_l, Rplus_0_r. f_equal. apply lincomb_ext; auto. intros i L. unfold xset. destruct (Nat.eqb_spec i n); [lia|auto].
Qed.
Lemma rep_more n x y cs m : (forall p i, In p cs -> (n <= i)%nat -> snd p i = 0) -> rep cs n x m -> rep cs (S n) (xset x n y) m.
Proof. intros Z0 R. induction R; constructor; [apply repr_more; auto; intros; apply Z0; simpl; auto|apply IHR; intros; apply Z0; simpl; auto]. Qed.
Lemma rep_fst n x cs m : rep cs n x m -> map fst m = map fst cs.
Proof. induction 1 as [|p q l l' (E & _) R IH]; simpl; congruence. Qed.
Lemma lincomb_cset_r n c v x : lincomb n x (cset c n v) = lincomb n x c.
Proof. apply lincomb_ext; auto. intros i L. unfold cset. destruct (Nat.eqb_spec i n); [lia|auto]. Qed.
Lemma lincomb_cset_l n c v x : lincomb n (cset c n v) x = lincomb n c x.
Proof. rewrite lincomb_comm, lincomb_cset_r. apply lincomb_comm. Qed.
Lemma cset_n c n v : cset c n v n = v.
Proof. unfold cset. rewrite Nat.eqb_refl. auto. Qed.
(** adding a time to a set of times *)
Lemma gram_insert cs1 cs2 n s c q : gram (cs1 ++ cs2) n -> List.Forall (fun p => fst p < s) cs1 -> List.Forall (fun p => s < fst p) cs2 -> (forall i, (n <= i)%nat -> c i = 0) ->
  (forall p, In p (cs1 ++ cs2) -> lincomb n c (snd p) = brownian_cov t0 s (fst p)) -> lincomb n c c + q * q = brownian_cov t0 s s ->
  gram (cs1 ++ (s, cset c n q) :: cs2) (S n).
Proof.
  intros [S T Z0 K] F1 F2 C0 H1 H2. constructor.
  - apply sorted_glue; auto.
  - rewrite map_app in *. apply in_app_or in T. apply in_or_app. cbn [map fst]. simpl. tauto.
  - intros p i I L. apply in_app_or in I. destruct I as [I|[<-|I]]; [apply Z0; [apply in_or_app; auto|lia]| |apply Z0; [apply in_or_app; auto|lia]]. cbn [snd]. unfold cset. destruct (Nat.eqb_spec i n); [lia|]. apply C0. lia.
  - assert (J : forall p, In p (cs1 ++ (s, cset c n q) :: cs2) -> p = (s, cset c n q) \/ In p (cs1 ++ cs2)). { intros p I. apply in_app_or in I. destruct I as [I|[<-|I]]; auto; right; apply in_or_app; auto. }
    intros p r I1 I2. rewrite lincomb_S. destruct (J p I1) as [->|J1], (J r I2) as [->|J2]; cbn [fst snd]; rewrite ?cset_n, ?lincomb_cset_r, ?lincomb_cset_l.
    + exact H2.
    + rewrite (Z0 r n J2) by lia. rewrite (H1 r J2). ring.
    + rewrite (Z0 p n J1) by lia. rewrite lincomb_comm, (H1 p J1). rewrite brownian_cov_sym. ring.
    + rewrite (K p r J1 J2), (Z0 p n J1) by lia. ring.
Qed.
Lemma adjacent_start l tk zk t2 z2 (l3 : list (R * (nat -> R))) : StronglySorted Rlt (map fst (l ++ (tk, zk) :: (t2, z2) :: l3)) -> In t0 (map fst (l ++ (tk, zk) :: (t2, z2) :: l3)) -> t0 <= tk \/ t2 <= t0.
Proof.
  intros S I. destruct (sorted_app_cons _ _ _ _ S) as [F1 F2]. apply in_map_iff in I. destruct I as ([t z] & E & I). cbn [fst] in E. subst t. apply in_app_or in I. rewrite Forall_forall in F1. destruct I as [I|[I|[I|I]]].
  - specialize (F1 _ I). cbn [fst] in F1. lra.
  - injection I as <- <-. lra.
  - injection I as <- <-. lra.
  - right. assert (F3 := Forall_inv_tail F2). replace (l ++ (tk, zk) :: (t2, z2) :: l3) with ((l ++ [(tk, zk)]) ++ (t2, z2) :: l3) in S by (rewrite <- app_assoc; reflexivity). destruct (sorted_app_cons _ _ _ _ S) as [_ F4]. rewrite Forall_forall in F4. specialize (F4 _ I). cbn [fst] in F4. lra.
Qed.
Lemma rep_forall (P : R -> Prop) n x cs m : rep cs n x m -> List.Forall (fun p => P (fst p)) cs -> List.Forall (fun p => P (fst p)) m.
Proof. intro Rp. induction Rp as [|p q l l' (E & _) Rp IH]; intro F; inversion F; subst; constructor; auto. rewrite <- E; auto. Qed.
Lemma rep_app_inv cs1 p cs2 n x m : rep (cs1 ++ p :: cs2) n x m -> exists m1 w m2, m = m1 ++ (fst p, w) :: m2 /\ rep cs1 n x m1 /\ repr n x p (fst p, w) /\ rep cs2 n x m2.
Proof.
  intro Rp. apply Forall2_app_inv_l in Rp. destruct Rp as (m1 & m2' & R1 & R2 & ->). inversion R2 as [|? [tq w] ? m2 Rq R3]; subst. assert (E : fst p = tq) by apply Rq. exists m1, w, m2. rewrite E. exact (conj eq_refl (conj R1 (conj Rq R3))).
Qed.
Definition query_result cs n s cs' n' : Prop :=
  forall x m g, rep cs n x m -> exists v m',
    (n' = n /\ ret s (m, g) = (Ok v, (m', g)) /\ rep cs' n' x m') \/
    (n' = S n /\ exists y g', dW 0 1 g = (Ok y, g') /\ ret s (m, g) = (Ok v, (m', g')) /\ rep cs' n' (xset x n y) m').
Lemma gram_in cs n p q : gram cs n -> In p cs -> In q cs -> lincomb n (snd p) (snd q) = brownian_cov t0 (fst p) (fst q).
Proof. intro K. apply (g_cov _ _ K). Qed.
Lemma gram_at cs n t c p : gram cs n -> In (t, c) cs -> In p cs -> lincomb n c (snd p) = brownian_cov t0 t (fst p).
Proof. intros K I J. apply (g_cov _ _ K (t, c) p I J). Qed.
Lemma gram_self cs n t c : gram cs n -> In (t, c) cs -> lincomb n c c = brownian_cov t0 t t.
Proof. intros K I. apply (g_cov _ _ K (t, c) (t, c) I I). Qed.
Lemma wiener_query cs n s : gram cs n -> exists cs' n', gram cs' n' /\ query_result cs n s cs' n'.
Proof using N MN CC rtol_pos.
  intro K. assert (S := g_sorted _ _ K). assert (T := g_start _ _ K). destruct (sorted_split cs s S) as (l1 & l2 & -> & F1 & F2).
  destruct l1 as [|p1 l1'].
  - destruct l2 as [|[t2 c2] l3]; [destruct T|]. cbn [app] in *. destruct (memory_snoc ((t2, c2) :: l3)) as (l & [tl cl] & El); [discriminate|].
    destruct (isclose rtol s tl) eqn:C.
    + exists ((t2, c2) :: l3), n. split; auto. intros x m g Rp. inversion Rp as [|? [t2' w2] ? m3 R2 R3]; subst m. assert (t2' = t2) by (symmetry; apply R2). subst t2'. pose proof (rep_forall (fun t => s < t) _ _ _ _ Rp F2) as Fm. assert (Rl := Rp). rewrite El in Rl. destruct (rep_app_inv l (tl, cl) [] n x _ Rl) as (m1 & wl & m2 & Em & _ & _ & R0). inversion R0; subst m2. cbn [fst] in Em. exists wl, ((t2, w2) :: m3). left. split; auto. split; auto. rewrite (retrieve1_start _ _ _ _ t2 w2 m3 m1 tl wl s g Fm); auto. rewrite C. reflexivity.
    + assert (L : s < t2) by (apply Forall_inv in F2; auto). assert (L0 : t2 <= t0). { apply in_map_iff in T. destruct T as ([t z] & E & I). cbn [fst] in E. subst t. destruct I as [I|I]; [injection I as -> _; lra|]. destruct (sorted_app_cons [] _ _ _ S) as [_ F]. rewrite Forall_forall in F. specialize (F _ I). cbn [fst] in F. lra. }
      exists ([] ++ (s, cset c2 n (sqrt (Rabs (s - t2)))) :: (t2, c2) :: l3), (Datatypes.S n). split.
      * apply gram_insert; auto.
        { intros i Li. apply (g_zero _ _ K (t2, c2)); simpl; auto. }
        { intros p I. rewrite (gram_at _ _ t2 c2 p K) by (simpl; auto). cbn [fst]. symmetry. apply kernel_far. right. split; [lra|]. destruct I as [<-|I]; [simpl; lra|]. destruct (sorted_app_cons [] _ _ _ S) as [_ F]. rewrite Forall_forall in F. specialize (F _ I). lra. }
        { rewrite (gram_self _ _ t2 c2 K) by (simpl; auto). cbn [fst]. rewrite sqrt_sqrt by apply Rabs_pos. rewrite !kernel_self. rewrite !Rabs_left1 by lra. lra. }
      * intros x m g Rp. inversion Rp as [|? [t2' w2] ? m3 R2 R3]; subst m. assert (t2' = t2) by (symmetry; apply R2). subst t2'. pose proof (rep_forall (fun t => s < t) _ _ _ _ Rp F2) as Fm. assert (Rl := Rp). rewrite El in Rl. destruct (rep_app_inv l (tl, cl) [] n x _ Rl) as (m1 & wl & m2 & Em & _ & _ & R0). inversion R0; subst m2. cbn [fst] in Em. rewrite (retrieve1_start _ _ _ _ t2 w2 m3 m1 tl wl s g Fm) by auto. rewrite C. assert (R2' := R2). destruct R2' as (_ & Sw & Hw). cbn [fst snd] in Sw, Hw.
        destruct (outside_step w2 t2 s g Sw ltac:(right; lra)) as (y & g' & Ey & Sy & w' & Ew' & Sw' & Hw'). rewrite Ew'. exists w', ((s, w') :: (t2, w2) :: m3). right. split; auto. exists y, g'. split; auto. split; auto.
        constructor; [|apply rep_more; [intros p i I Li; apply (g_zero _ _ K); auto|exact Rp]]. split; auto. split; auto. cbn [fst snd]. intros ix I. rewrite Hw', Hw by auto. rewrite lincomb_S, lincomb_cset_l, cset_n. unfold xset at 2. rewrite Nat.eqb_refl.
        rewrite Rplus_assoc. f_equal. f_equal. apply lincomb_ext; auto. intros i Li. unfold xset. destruct (Nat.eqb_spec i n); [lia|auto].
  - destruct (memory_snoc (p1 :: l1')) as (l & [tk ck] & El); [discriminate|]. rewrite El in *. clear p1 l1' El. assert (Lk : tk <= s) by (apply Forall_app in F1; destruct F1 as [_ F1]; inversion F1; auto).
    destruct (isclose rtol s tk) eqn:C.
    + exists ((l ++ [(tk, ck)]) ++ l2), n. split; auto. intros x m g Rp. rewrite <- app_assoc in Rp. cbn [app] in Rp. destruct (rep_app_inv l (tk, ck) l2 n x m Rp) as (m1 & wk & m2 & -> & R1 & R2 & R3). cbn [fst] in *.
      assert (Fm : List.Forall (fun p => fst p <= s) (m1 ++ [(tk, wk)])). { apply Forall_app in F1. destruct F1 as [F1 _]. apply Forall_app. split; [apply (rep_forall (fun t => t <= s) _ _ _ _ R1 F1)|constructor; [exact Lk|constructor]]. }
      exists wk, (m1 ++ (tk, wk) :: m2). left. split; auto. split; [|rewrite <- app_assoc; exact Rp]. destruct m2 as [|[t2 w2] m3].
      * rewrite retrieve1_end by auto. rewrite C. auto.
      * pose proof (rep_forall (fun t => s < t) _ _ _ _ R3 F2) as Fm2. rewrite retrieve1_between by auto. rewrite C. auto.
    + assert (Lt : tk < s) by (apply (not_close_lt rtol rtol_pos); auto; apply isclose_R_false; auto). destruct l2 as [|[t2 c2] l3].
      * (* after the last time *) rewrite app_nil_r in *. assert (L0 : t0 <= tk). { apply in_map_iff in T. destruct T as ([t z] & E & I). cbn [fst] in E. subst t. apply in_app_or in I. destruct I as [I|[I|[]]]; [|injection I as -> _; lra]. destruct (sorted_app_cons _ _ _ _ S) as [F _]. rewrite Forall_forall in F. specialize (F _ I). cbn [fst] in F. lra. }
        exists ((l ++ [(tk, ck)]) ++ [(s, cset ck n (sqrt (Rabs (s - tk))))]), (Datatypes.S n). assert (Ik : In (tk, ck) (l ++ [(tk, ck)])) by (apply in_or_app; simpl; auto). split.
        { apply gram_insert; rewrite ?app_nil_r; auto.
          { eapply sorted_below; [exact S|auto]. }
          { intros i Li. apply (g_zero _ _ K (tk, ck)); auto. }
          { intros p I. rewrite (gram_at _ _ tk ck p K) by auto. cbn [fst]. symmetry. apply kernel_far. left. split; [lra|]. apply in_app_or in I. destruct I as [I|[<-|[]]]; [|simpl; lra]. destruct (sorted_app_cons _ _ _ _ S) as [F _]. rewrite Forall_forall in F. specialize (F _ I). lra. }
          { rewrite (gram_self _ _ tk ck K) by auto. cbn [fst]. rewrite sqrt_sqrt by apply Rabs_pos. rewrite !kernel_self. rewrite !Rabs_right by lra. lra. } }
        intros x m g Rp. destruct (rep_app_inv l (tk, ck) [] n x m Rp) as (m1 & wk & m2 & -> & R1 & R2 & R3). inversion R3; subst m2. cbn [fst] in *.
        assert (Fm : List.Forall (fun p => fst p <= s) (m1 ++ [(tk, wk)])). { apply Forall_app in F1. destruct F1 as [F1 _]. apply Forall_app. split; [apply (rep_forall (fun t => t <= s) _ _ _ _ R1 F1)|constructor; [exact Lk|constructor]]. }
        rewrite retrieve1_end by auto. rewrite C. assert (R2' := R2). destruct R2' as (_ & Sw & Hw). cbn [fst snd] in Sw, Hw.
        destruct (outside_step wk tk s g Sw ltac:(left; lra)) as (y & g' & Ey & Sy & w' & Ew' & Sw' & Hw'). rewrite Ew'. exists w', (m1 ++ [(tk, wk); (s, w')]). right. split; auto. exists y, g'. split; auto. split; auto.
        replace (m1 ++ [(tk, wk); (s, w')]) with ((m1 ++ [(tk, wk)]) ++ [(s, w')]) by (rewrite <- app_assoc; auto). apply Forall2_app; [apply rep_more; [intros p i I Li; apply (g_zero _ _ K); auto|exact Rp]|].
        constructor; [|constructor]. split; auto. split; auto. cbn [fst snd]. intros ix I. rewrite Hw', Hw by auto. rewrite lincomb_S, lincomb_cset_l, cset_n. unfold xset at 2. rewrite Nat.eqb_refl.
        rewrite Rplus_assoc. f_equal. f_equal. apply lincomb_ext; auto. intros i Li. unfold xset. destruct (Nat.eqb_spec i n); [lia|auto].
      * (* between two times *) assert (L2 : s < t2) by (apply Forall_inv in F2; auto). assert (S' := S). assert (T' := T). rewrite <- app_assoc in S', T'. cbn [app] in S', T'. pose proof (adjacent_start _ _ _ _ _ _ S' T') as Ad.
        assert (Ik : In (tk, ck) ((l ++ [(tk, ck)]) ++ (t2, c2) :: l3)) by (apply in_or_app; left; apply in_or_app; simpl; auto). assert (I2 : In (t2, c2) ((l ++ [(tk, ck)]) ++ (t2, c2) :: l3)) by (apply in_or_app; simpl; auto).
        assert (Sep : forall p, In p ((l ++ [(tk, ck)]) ++ (t2, c2) :: l3) -> fst p <= tk \/ t2 <= fst p).
        { intros p I. apply in_app_or in I. destruct I as [I|I].
          - left. apply in_app_or in I. destruct I as [I|[<-|[]]]; [|simpl; lra]. destruct (sorted_app_cons _ _ _ _ S') as [F _]. rewrite Forall_forall in F. specialize (F _ I). lra.
          - right. destruct I as [<-|I]; [simpl; lra|]. destruct (sorted_app_cons _ _ _ _ S) as [_ F]. rewrite Forall_forall in F. specialize (F _ I). lra. }
        (* orient the interval away from t0 *)
        assert (Or : exists T1 C1 T2 C2, ((T1, C1) = (tk, ck) /\ (T2, C2) = (t2, c2) /\ t0 <= tk /\ nle t2 t0 = false \/ (T1, C1) = (t2, c2) /\ (T2, C2) = (tk, ck) /\ t2 <= t0 /\ nle t2 t0 = true)).
        { destruct (Rle_lt_dec t2 t0) as [D|D]; [exists t2, c2, tk, ck; right|exists tk, ck, t2, c2; left]; (split; [reflexivity|split; [reflexivity|split]]); [lra|apply (proj2 (nle_R t2 t0)); auto|lra|]. destruct (nle t2 t0) eqn:E; auto. apply (proj1 (nle_R t2 t0)) in E. lra. }
        destruct Or as (T1 & C1 & T2 & C2 & Or). set (z := (T2 - s)/(T2 - T1)).
        assert (Hz : ((t0 <= T1 < s /\ s < T2) \/ (T2 < s /\ s < T1 <= t0)) /\ In (T1, C1) ((l ++ [(tk, ck)]) ++ (t2, c2) :: l3) /\ In (T2, C2) ((l ++ [(tk, ck)]) ++ (t2, c2) :: l3)).
        { destruct Or as [(E1 & E2 & Or & _)|(E1 & E2 & Or & _)]; injection E1 as -> ->; injection E2 as -> ->; (split; [|split; auto]); lra. }
        destruct Hz as (Hz & J1 & J2). assert (Pz : 0 <= z). { unfold z. destruct Hz as [Hz|Hz]; [apply Rmult_le_pos; [lra|left; apply Rinv_0_lt_compat; lra]|replace ((T2 - s)/(T2 - T1)) with ((s - T2)/(T1 - T2)) by (field; lra); apply Rmult_le_pos; [lra|left; apply Rinv_0_lt_compat; lra]]. }
        assert (Sep' : forall p, In p ((l ++ [(tk, ck)]) ++ (t2, c2) :: l3) -> (fst p <= T1 /\ fst p <= T2) \/ (T2 <= fst p /\ T1 <= fst p)).
        { intros p I. destruct (Sep p I); destruct Or as [(E1 & E2 & Or & _)|(E1 & E2 & Or & _)]; injection E1 as -> ->; injection E2 as -> ->; lra. }
        set (c := fun i => z * C1 i + (1 - z) * C2 i). set (q := sqrt (z * Rabs (s - T1))).
        assert (Lc : forall p, In p ((l ++ [(tk, ck)]) ++ (t2, c2) :: l3) -> lincomb n c (snd p) = brownian_cov t0 s (fst p)).
        { intros p I. unfold c. rewrite lincomb_add. pose proof (gram_in _ _ (T1, C1) p K J1 I) as Q1. pose proof (gram_in _ _ (T2, C2) p K J2 I) as Q2. cbn [fst snd] in Q1, Q2. rewrite Q1, Q2. symmetry. apply kernel_between; auto. }
        exists ((l ++ [(tk, ck)]) ++ (s, cset c n q) :: (t2, c2) :: l3), (Datatypes.S n). split.
        { apply gram_insert; auto.
          { eapply sorted_below; [exact S'|auto]. }
          { intros i Li. unfold c. pose proof (g_zero _ _ K (T1, C1) i J1 Li) as Q1. pose proof (g_zero _ _ K (T2, C2) i J2 Li) as Q2. cbn [snd] in Q1, Q2. rewrite Q1, Q2. ring. }
          { unfold q. rewrite sqrt_sqrt by (apply Rmult_le_pos; auto; apply Rabs_pos). unfold c at 1. rewrite lincomb_add. rewrite (lincomb_comm n C1), (lincomb_comm n C2). pose proof (Lc _ J1) as Q1. pose proof (Lc _ J2) as Q2. cbn [fst snd] in Q1, Q2. rewrite Q1, Q2.
            rewrite kernel_self. assert (X1 : brownian_cov t0 s T1 = Rabs (T1 - t0)) by (rewrite <- kernel_self; destruct Hz; kern). assert (X2 : brownian_cov t0 s T2 = Rabs (s - t0)) by (rewrite <- kernel_self; destruct Hz; kern). rewrite X1, X2.
            assert (X3 : Rabs (s - t0) = Rabs (T1 - t0) + Rabs (s - T1)) by (destruct Hz; [rewrite !Rabs_right by lra; lra|rewrite !Rabs_left1 by lra; lra]). rewrite X3. ring. } }
        intros x m g Rp. rewrite <- app_assoc in Rp. cbn [app] in Rp. destruct (rep_app_inv l (tk, ck) _ n x m Rp) as (m1 & wk & m2 & -> & R1 & R2 & R3). cbn [fst] in *. inversion R3 as [|? [t2' w2] ? m3 R4 R5]; subst m2. assert (t2' = t2) by (symmetry; apply R4). subst t2'.
        assert (Fm : List.Forall (fun p => fst p <= s) (m1 ++ [(tk, wk)])). { apply Forall_app in F1. destruct F1 as [F1 _]. apply Forall_app. split; [apply (rep_forall (fun t => t <= s) _ _ _ _ R1 F1)|constructor; [exact Lk|constructor]]. }
        pose proof (rep_forall (fun t => s < t) _ _ _ _ R3 F2) as Fm2. rewrite retrieve1_between by auto. rewrite C.
        assert (W : exists W1 W2, repr n x (T1, C1) (T1, W1) /\ repr n x (T2, C2) (T2, W2) /\ wiener_inside normal mvnormal inv paths vshape corr t0 wk w2 tk t2 s g = dbind (wiener_bridge normal mvnormal inv paths vshape corr t0 W1 W2 T1 T2 s) (fun w => dret (wk, Some w)) g).
        { destruct Or as [(E1 & E2 & Or & Nl)|(E1 & E2 & Or & Nl)]; injection E1 as -> ->; injection E2 as -> ->; [exists wk, w2|exists w2, wk]; (split; [|split]); auto; unfold wiener_inside; rewrite Nl; reflexivity. }
        destruct W as (W1 & W2 & (_ & SW1 & HW1) & (_ & SW2 & HW2) & EW). rewrite EW. cbn [fst snd] in *.
        destruct (bridge_step W1 W2 T1 T2 s g SW1 SW2 ltac:(destruct Hz; [left|right]; lra)) as (y & g' & Ey & Sy & w' & Ew' & Sw' & Hw'). unfold dbind. rewrite Ew'. unfold dret. exists w', (m1 ++ (tk, wk) :: (s, w') :: (t2, w2) :: m3). right. split; auto. exists y, g'. split; auto. split; auto.
        rewrite <- app_assoc. cbn [app].
        assert (Z0 : forall p i, In p (l ++ (tk, ck) :: (t2, c2) :: l3) -> (n <= i)%nat -> snd p i = 0) by (intros p i I Li; apply (g_zero _ _ K); auto; rewrite <- app_assoc; exact I).
        apply Forall2_app; [apply rep_more; auto; intros; apply Z0; auto; apply in_or_app; auto|]. constructor; [apply repr_more; auto; intros; apply (Z0 (tk, ck)); auto; apply in_or_app; simpl; auto|]. constructor.
        { split; auto. split; auto. cbn [fst snd]. intros ix I. rewrite (Hw' z eq_refl ix I), HW1, HW2 by auto. rewrite lincomb_S, lincomb_cset_l, cset_n. unfold xset at 2. rewrite Nat.eqb_refl. fold q.
          transitivity (bget z0 ix + (z * lincomb n C1 (fun i => dat (x i) ix) + (1 - z) * lincomb n C2 (fun i => dat (x i) ix)) + q * dat y ix); [ring|]. rewrite <- lincomb_add. rewrite Rplus_assoc. f_equal. f_equal. apply lincomb_ext; auto. intros i Li. unfold xset. destruct (Nat.eqb_spec i n); [lia|auto]. }
        { apply (rep_more n x y ((t2, c2) :: l3)); [intros; apply Z0; auto; apply in_or_app; simpl; auto|exact R3]. }
Qed.
End Wiener.
