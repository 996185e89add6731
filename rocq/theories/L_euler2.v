(** Lemmas on the moments of the Euler scheme. *)
From Coq Require Import String List Arith Bool ZArith Reals Lra Lia Sorting.Sorted.
From Verif Require Import Base BaseOrd BaseNum BaseArr M_paths S_paths S_run L_ord L_paths8
  M_process M_source S_source M_sde S_sde L_sde L_sde2 L_sde3 M_presets S_presets L_presets M_integrate S_integrate P_source P_source4 S_true2 S_euler L_euler.
Import ListNotations.
Open Scope R_scope.

(** *** Grids: there is one, and no other *)
Lemma insert_sorted (x : R) l : StronglySorted Rlt l -> exists g, StronglySorted Rlt g /\ forall t, In t g <-> t = x \/ In t l.
Proof.
  induction l as [|y l IH]; intro S.
  - exists [x]. split; [repeat constructor|]. simpl. intuition.
  - assert (S' := S). apply StronglySorted_inv in S'. destruct S' as [S1 F]. 
    destruct (Rtotal_order x y) as [L|[->|L]].
    + exists (x :: y :: l). split; [|simpl; intuition]. constructor; auto. constructor; auto.
      eapply Forall_impl; [|exact F]. simpl. intros; lra.
    + exists (y :: l). split; auto. simpl. intuition.
    + destruct (IH S1) as (g & Sg & Hg). exists (y :: g). split; [|intro t; simpl; rewrite Hg; intuition].
      constructor; auto. rewrite Forall_forall in *. intros t Ht. apply Hg in Ht. destruct Ht as [->|Ht]; auto.
Qed.
Lemma sort_set (l : list R) : exists g, StronglySorted Rlt g /\ forall t, In t g <-> In t l.
Proof.
  induction l as [|x l (g & S & H)]; [exists []; split; [constructor|tauto]|].
  destruct (insert_sorted x g S) as (g' & S' & H'). exists g'. split; auto. intro t. rewrite H', H. simpl. intuition.
Qed.
Lemma sorted_same (l : list R) : forall m, StronglySorted Rlt l -> StronglySorted Rlt m -> (forall t, In t l <-> In t m) -> l = m.
Proof.
  induction l as [|x l IH]; intros [|y m] S1 S2 H; auto.
  - destruct (proj2 (H y)); left; auto.
  - destruct (proj1 (H x)); left; auto.
  - apply StronglySorted_inv in S1. apply StronglySorted_inv in S2. destruct S1 as [S1 F1], S2 as [S2 F2].
    rewrite Forall_forall in F1, F2.
    assert (x = y).
    { destruct (proj1 (H x) (or_introl eq_refl)) as [E|Hx]; auto. destruct (proj2 (H y) (or_introl eq_refl)) as [E|Hy]; auto.
      specialize (F1 y Hy). specialize (F2 x Hx). lra. }
    subst y. f_equal. apply IH; auto. intro t. split; intro Ht.
    + destruct (proj1 (H t) (or_intror Ht)) as [<-|]; auto. specialize (F1 x Ht). lra.
    + destruct (proj2 (H t) (or_intror Ht)) as [<-|]; auto. specialize (F2 x Ht). lra.
Qed.

Lemma before_false (a b : R) : before false a b <-> a < b.
Proof. apply (before_R false). Qed.
Lemma sorted_before l : StronglySorted (before false) l <-> StronglySorted Rlt l.
Proof.
  split; intro S; induction S as [|x l S IH F]; constructor; auto; eapply Forall_impl; try exact F; intro; apply before_false.
Qed.

Lemma grid_exists timeline pc t0 : exists g, grid_spec false timeline pc t0 g.
Proof.
  set (keep := fun t => ((if Rle_dec t0 t then true else false) &&
     (existsb (fun a => if Rle_dec a t then true else false) timeline && existsb (fun b => if Rle_dec t b then true else false) timeline))%bool).
  destruct (sort_set (filter keep (timeline ++ pc))) as (g & S & H). exists g. split; [apply sorted_before; auto|].
  intro t. rewrite InT_R, H, filter_In, in_app_iff, before_false, teqb_R_true, !InT_R. unfold keep.
  rewrite !andb_true_iff, !existsb_exists. split.
  - intros [I (K1 & (a & Ha & K2) & (b & Hb & K3))].
    destruct (Rle_dec t0 t); [|discriminate]. destruct (Rle_dec a t); [|discriminate]. destruct (Rle_dec t b); [|discriminate].
    split; [|lra]. destruct I as [I|I]; [left; auto|]. right. split; auto. exists a, b. rewrite !InT_R, !tleb_R. auto.
  - intros [I K]. split; [destruct I as [I|[I _]]; auto|]. split; [destruct (Rle_dec t0 t); auto; lra|].
    assert (Hab : exists a b, In a timeline /\ In b timeline /\ a <= t <= b).
    { destruct I as [I|[_ (a & b & Ha & Hb & L1 & L2)]].
      - exists t, t. repeat split; auto; lra.
      - rewrite InT_R in Ha, Hb. rewrite tleb_R in L1, L2. exists a, b. auto. }
    destruct Hab as (a & b & Ha & Hb & L1 & L2). split.
    + exists a. split; auto. destruct (Rle_dec a t); auto.
    + exists b. split; auto. destruct (Rle_dec t b); auto.
Qed.
Lemma grid_same timeline pc t0 g g' : grid_spec false timeline pc t0 g -> grid_spec false timeline pc t0 g' -> g = g'.
Proof.
  intros [S H] [S' H']. apply sorted_same; [apply sorted_before; auto|apply sorted_before; auto|].
  intro t. rewrite <- !InT_R, H, H'. reflexivity.
Qed.

(** *** Linear drift *)
(** the values along a grid, for given draws *)
Section Path.
Variables (gr : list R) (al ka sg x0 : R).
Definition gap (n : nat) : R := nth (S n) gr 0 - nth n gr 0.
Fixpoint lpath (xi : nat -> R) (n : nat) : R :=
  match n with
  | 0%nat => x0
  | S n => lpath xi n + (al - ka * lpath xi n) * gap n + sg * (xi n * sqrt (Rabs (gap n)))
  end.
Fixpoint mpath (n : nat) : R := match n with 0%nat => x0 | S n => mpath n + (al - ka * mpath n) * gap n end.
Fixpoint vpath (n : nat) : R := match n with 0%nat => 0 | S n => (1 - ka * gap n) * (1 - ka * gap n) * vpath n + sg * sg * Rabs (gap n) end.

Section E.
Context {Omega : Type}.
Variables (E : (Omega -> R) -> R) (xi : nat -> Omega -> R).
Hypothesis HL : linear E.
Hypothesis H1 : E (fun _ => 1) = 1.
Variable N : nat.
Hypothesis X1 : forall n, (n < N)%nat -> E (xi n) = 0.
Hypothesis X2 : forall n m, (n < N)%nat -> (m < N)%nat -> E (fun o => xi n o * xi m o) = if Nat.eqb n m then 1 else 0.

Lemma E_ext X Y : (forall o, X o = Y o) -> E X = E Y. Proof. apply HL. Qed.
Lemma E_add X Y : E (fun o => X o + Y o) = E X + E Y. Proof. apply HL. Qed.
Lemma E_mul a X : E (fun o => a * X o) = a * E X. Proof. apply HL. Qed.
Lemma E_const a : E (fun _ => a) = a.
Proof. rewrite (E_ext _ (fun o => a * 1)) by (intro; ring). rewrite (E_mul a (fun _ => 1)), H1. ring. Qed.

Let Y (n : nat) (o : Omega) : R := lpath (fun m => xi m o) n.
Let D (n : nat) (o : Omega) : R := Y n o - mpath n.

Lemma D_step n o : D (S n) o = (1 - ka * gap n) * D n o + sg * sqrt (Rabs (gap n)) * xi n o.
Proof. unfold D, Y. cbn [lpath mpath]. ring. Qed.
Lemma moments n : (n <= N)%nat -> E (D n) = 0 /\ E (fun o => D n o * D n o) = vpath n /\ forall j, (n <= j < N)%nat -> E (fun o => D n o * xi j o) = 0.
Proof.
  induction n as [|n IH]; intro HN; [|destruct (IH ltac:(lia)) as (I1 & I2 & I3)].
  - assert (Z : forall o, D 0 o = 0) by (intro; unfold D, Y; cbn [lpath mpath]; ring). split; [|split].
    + rewrite (E_ext _ (fun _ => 0) Z). apply E_const.
    + rewrite (E_ext _ (fun _ => 0)); [apply E_const|]. intro o. rewrite Z. ring.
    + intros j _. rewrite (E_ext _ (fun _ => 0)); [apply E_const|]. intro o. rewrite Z. ring.
  - set (a := 1 - ka * gap n). set (c := sg * sqrt (Rabs (gap n))). split; [|split].
    + rewrite (E_ext _ _ (D_step n)). fold a c. rewrite (E_add (fun o => a * D n o) (fun o => c * xi n o)), !E_mul, I1, (X1 n HN). ring.
    + rewrite (E_ext _ (fun o => a * a * (D n o * D n o) + (2 * a * c * (D n o * xi n o) + c * c * (xi n o * xi n o)))).
      2: { intro o. rewrite D_step. fold a c. ring. }
      rewrite (E_add (fun o => a * a * (D n o * D n o))), (E_add (fun o => 2 * a * c * (D n o * xi n o))).
      rewrite (E_mul (a * a) (fun o => D n o * D n o)), (E_mul (2 * a * c) (fun o => D n o * xi n o)), (E_mul (c * c) (fun o => xi n o * xi n o)).
      rewrite I2, I3, X2 by lia. rewrite Nat.eqb_refl. cbn [vpath]. fold a. unfold c.
      replace (sg * sqrt (Rabs (gap n)) * (sg * sqrt (Rabs (gap n))) * 1) with (sg * sg * (sqrt (Rabs (gap n)) * sqrt (Rabs (gap n)))) by ring.
      rewrite sqrt_sqrt by apply Rabs_pos. ring.
    + intros j Hj. rewrite (E_ext _ (fun o => a * (D n o * xi j o) + c * (xi n o * xi j o))).
      2: { intro o. rewrite D_step. fold a c. ring. }
      rewrite (E_add (fun o => a * (D n o * xi j o))), (E_mul a (fun o => D n o * xi j o)), (E_mul c (fun o => xi n o * xi j o)), I3, X2 by lia.
      destruct (Nat.eqb_spec n j); [lia|]. ring.
Qed.
Lemma lpath_mean n : (n <= N)%nat -> E (fun o => lpath (fun m => xi m o) n) = mpath n.
Proof.
  intro HN. rewrite (E_ext _ (fun o => D n o + mpath n)) by (intro; unfold D, Y; ring).
  rewrite (E_add (D n) (fun _ => mpath n)), E_const. destruct (moments n HN) as (-> & _). ring.
Qed.
Lemma lpath_var n : (n <= N)%nat -> E (fun o => (lpath (fun m => xi m o) n - mpath n) * (lpath (fun m => xi m o) n - mpath n)) = vpath n.
Proof. intro HN. apply moments; auto. Qed.
End E.

(** *** Distance of mean and variance from those of the process *)
Variables (A B h : R).
Hypothesis GR : forall n, (S n < length gr)%nat -> 0 < gap n <= h.
Hypothesis IN : forall n, (n < length gr)%nat -> A <= nth n gr 0 <= B.
Hypothesis G0 : nth 0 gr 0 = A.
Variable L : R.
Hypothesis LP : 0 < L.
Hypothesis LK : 2 * Rabs ka <= L.

Lemma time_gap n : nth (S n) gr 0 = nth n gr 0 + gap n. Proof. unfold gap. ring. Qed.

Lemma mpath_close (M : R -> R) om : 0 <= om -> M A = x0 ->
  (forall t, A <= t <= B -> derivable_pt_lim M t (al - ka * M t)) ->
  (forall s t, A <= s <= B -> A <= t <= B -> Rabs (t - s) <= h -> Rabs (al - ka * M t - (al - ka * M s)) <= om) ->
  forall n, (n < length gr)%nat -> Rabs (mpath n - M (nth n gr 0)) <= om / L * (exp (L * (nth n gr 0 - A)) - 1).
Proof.
  intros HO M0 DM OM. induction n as [|n IH]; intro Hn.
  - rewrite G0. cbn [mpath]. replace (A - A) with 0 by ring. rewrite M0, Rminus_diag_eq, Rabs_R0, Rmult_0_r, exp_0 by auto. lra.
  - assert (G := GR n Hn). assert (I1 := IN n ltac:(lia)). assert (I2 := IN (S n) Hn). specialize (IH ltac:(lia)).
    replace (nth (S n) gr 0 - A) with (nth n gr 0 - A + gap n) by (rewrite time_gap; ring).
    assert (N0 := Rle_trans _ _ _ (Rabs_pos _) IH).
    apply error_step with (e := om / L * (exp (L * (nth n gr 0 - A)) - 1)); auto; [lra|apply Rle_refl|].
    set (e := om / L * (exp (L * (nth n gr 0 - A)) - 1)) in *.
    assert (MV := mvt_step M (fun t => al - ka * M t) A B om h (nth n gr 0) (nth (S n) gr 0) DM OM I1 I2).
    rewrite (Rabs_right (nth (S n) gr 0 - _)) in MV by (fold (gap n); lra). fold (gap n) in MV. specialize (MV ltac:(lra)).
    cbn [mpath]. set (s := nth n gr 0) in *. set (s' := nth (S n) gr 0) in *. set (d := gap n) in *.
    replace (mpath n + (al - ka * mpath n) * d - M s') with
      ((mpath n - M s) + (d * (- ka * (mpath n - M s)) + - (M s' - M s - (al - ka * M s) * d))) by ring.
    eapply Rle_trans; [apply Rabs_triang|]. apply Rplus_le_compat; auto.
    eapply Rle_trans; [apply Rabs_triang|]. rewrite Rabs_Ropp, !Rabs_mult, Rabs_Ropp, (Rabs_right d) by lra. rewrite Rmult_plus_distr_l.
    apply Rplus_le_compat; auto. apply Rmult_le_compat_l; [lra|]. apply Rmult_le_compat; auto; try apply Rabs_pos.
    assert (P := Rabs_pos ka). lra.
Qed.

Lemma vpath_pos n : 0 <= vpath n.
Proof.
  induction n as [|n IH]; cbn [vpath]; [lra|]. apply Rplus_le_le_0_compat; apply Rmult_le_pos; auto.
  - apply Rle_0_sqr. - apply Rle_0_sqr. - apply Rabs_pos.
Qed.
Lemma exp_le x y : x <= y -> exp x <= exp y.
Proof. intros [H|H]; [left; apply exp_increasing; auto|rewrite H; lra]. Qed.
Lemma vpath_bound n : (n < length gr)%nat -> vpath n <= sg * sg * (nth n gr 0 - A) * exp (L * (nth n gr 0 - A)).
Proof.
  induction n as [|n IH]; intro Hn.
  - rewrite G0. cbn [vpath]. rewrite Rminus_diag_eq by auto. lra.
  - assert (G := GR n Hn). assert (I1 := IN n ltac:(lia)). specialize (IH ltac:(lia)).
    replace (nth (S n) gr 0 - A) with (nth n gr 0 - A + gap n) by (rewrite time_gap; ring).
    set (s := nth n gr 0 - A) in *. set (d := gap n) in *. cbn [vpath]. fold d. rewrite (Rabs_right d) by lra.
    assert (S2 := Rle_0_sqr sg). unfold Rsqr in S2.
    assert (E1 : (1 - ka * d) * (1 - ka * d) <= exp (L * d)).
    { apply Rle_trans with ((1 + Rabs ka * d) * (1 + Rabs ka * d)).
      - assert (P := Rabs_pos ka).
        assert (Q : Rabs (1 - ka * d) <= 1 + Rabs ka * d).
        { unfold Rminus. eapply Rle_trans; [apply Rabs_triang|]. rewrite Rabs_Ropp, Rabs_mult, (Rabs_right d), (Rabs_right 1) by lra. lra. }
        assert (Q2 : (1 - ka * d) * (1 - ka * d) = Rabs (1 - ka * d) * Rabs (1 - ka * d)).
        { rewrite <- Rabs_mult. symmetry. apply Rabs_right. apply Rle_ge. apply Rle_0_sqr. }
        rewrite Q2. apply Rmult_le_compat; auto; apply Rabs_pos.
      - assert (Q := one_plus_exp (Rabs ka * d)).
        assert (0 <= Rabs ka * d) by (apply Rmult_le_pos; [apply Rabs_pos|lra]).
        apply Rle_trans with (exp (Rabs ka * d) * exp (Rabs ka * d)); [apply Rmult_le_compat; lra|].
        rewrite <- exp_plus. apply exp_le. replace (Rabs ka * d + Rabs ka * d) with ((2 * Rabs ka) * d) by ring.
        apply Rmult_le_compat_r; lra. }
    replace (L * (s + d)) with (L * d + L * s) by ring. rewrite exp_plus.
    assert (VP := vpath_pos n). assert (EP := exp_pos (L * d)). assert (ES := exp_pos (L * s)).
    assert (ES1 : 1 <= exp (L * d + L * s)).
    { rewrite <- exp_0. apply exp_le. assert (0 <= L * d) by (apply Rmult_le_pos; lra).
      assert (0 <= L * s) by (apply Rmult_le_pos; [lra|unfold s; lra]). lra. }
    rewrite exp_plus in ES1.
    apply Rle_trans with (exp (L * d) * (sg * sg * s * exp (L * s)) + sg * sg * d * (exp (L * d) * exp (L * s))).
    + apply Rplus_le_compat.
      * apply Rmult_le_compat; auto. apply Rle_0_sqr.
      * rewrite <- (Rmult_1_r (sg * sg * d)) at 1. apply Rmult_le_compat_l; auto. apply Rmult_le_pos; lra.
    + right. ring.
Qed.

Lemma vpath_close (Vr : R -> R) om : 0 <= om -> Vr A = 0 -> 0 <= h ->
  (forall t, A <= t <= B -> derivable_pt_lim Vr t (sg * sg - 2 * ka * Vr t)) ->
  (forall s t, A <= s <= B -> A <= t <= B -> Rabs (t - s) <= h -> Rabs (sg * sg - 2 * ka * Vr t - (sg * sg - 2 * ka * Vr s)) <= om) ->
  forall n, (n < length gr)%nat ->
    Rabs (vpath n - Vr (nth n gr 0)) <= (om + h * (ka * ka * (sg * sg * (B - A) * exp (L * (B - A))))) / L * (exp (L * (nth n gr 0 - A)) - 1).
Proof.
  intros HO V0 Hh DV OM. set (q := ka * ka * (sg * sg * (B - A) * exp (L * (B - A)))).
  induction n as [|n IH]; intro Hn.
  - rewrite G0. cbn [vpath]. replace (A - A) with 0 by ring. rewrite V0, Rminus_diag_eq, Rabs_R0, Rmult_0_r, exp_0 by auto. lra.
  - assert (G := GR n Hn). assert (I1 := IN n ltac:(lia)). assert (I2 := IN (S n) Hn). specialize (IH ltac:(lia)).
    assert (S2 := Rle_0_sqr sg). assert (K2 := Rle_0_sqr ka). unfold Rsqr in S2, K2.
    assert (QP : 0 <= q).
    { unfold q. apply Rmult_le_pos; auto. apply Rmult_le_pos; [apply Rmult_le_pos; auto; lra|left; apply exp_pos]. }
    assert (VQ : ka * ka * vpath n <= q).
    { unfold q. apply Rmult_le_compat_l; auto. apply Rle_trans with (1 := vpath_bound n ltac:(lia)).
      apply Rmult_le_compat; try (left; apply exp_pos); try (apply Rmult_le_pos; auto; lra).
      - apply Rmult_le_compat_l; auto; lra.
      - apply exp_le. apply Rmult_le_compat_l; lra. }
    replace (nth (S n) gr 0 - A) with (nth n gr 0 - A + gap n) by (rewrite time_gap; ring).
    assert (N0 := Rle_trans _ _ _ (Rabs_pos _) IH).
    set (om' := om + h * q) in *. assert (HO' : 0 <= om') by (unfold om'; apply Rplus_le_le_0_compat; auto; apply Rmult_le_pos; lra).
    apply error_step with (e := om' / L * (exp (L * (nth n gr 0 - A)) - 1)); auto; [lra|apply Rle_refl|].
    set (e := om' / L * (exp (L * (nth n gr 0 - A)) - 1)) in *.
    assert (MV := mvt_step Vr (fun t => sg * sg - 2 * ka * Vr t) A B om h (nth n gr 0) (nth (S n) gr 0) DV OM I1 I2).
    rewrite (Rabs_right (nth (S n) gr 0 - _)) in MV by (fold (gap n); lra). fold (gap n) in MV. specialize (MV ltac:(lra)).
    cbn [vpath]. set (s := nth n gr 0) in *. set (s' := nth (S n) gr 0) in *. set (d := gap n) in *.
    rewrite (Rabs_right d) by lra.
    replace ((1 - ka * d) * (1 - ka * d) * vpath n + sg * sg * d - Vr s') with
      ((vpath n - Vr s) + ((d * (- (2 * ka) * (vpath n - Vr s)) + - (Vr s' - Vr s - (sg * sg - 2 * ka * Vr s) * d)) + d * (d * (ka * ka * vpath n)))) by ring.
    eapply Rle_trans; [apply Rabs_triang|]. apply Rplus_le_compat; auto.
    unfold om'. replace (d * (L * e + (om + h * q))) with (d * (L * e) + d * om + d * (h * q)) by ring.
    eapply Rle_trans; [apply Rabs_triang|]. apply Rplus_le_compat.
    + eapply Rle_trans; [apply Rabs_triang|]. rewrite Rabs_Ropp, !Rabs_mult, Rabs_Ropp, Rabs_mult, (Rabs_right d), (Rabs_right 2) by lra.
      apply Rplus_le_compat; auto. apply Rmult_le_compat_l; [lra|]. apply Rmult_le_compat; auto; try apply Rabs_pos.
      apply Rmult_le_pos; [lra|apply Rabs_pos].
    + assert (VP := vpath_pos n). assert (0 <= ka * ka * vpath n) by (apply Rmult_le_pos; auto).
      rewrite Rabs_right. 2: { apply Rle_ge. apply Rmult_le_pos; [lra|]. apply Rmult_le_pos; lra. }
      apply Rmult_le_compat_l; [lra|]. apply Rmult_le_compat; lra.
Qed.
End Path.

(** *** Runs with the sources of the class *)
Section Run.
Context {G I : Type}.
Variables (normal : list nat -> G -> res (arr R) * G) (mvnormal : arr R -> list nat -> G -> res (arr R) * G).
Hypothesis N_ok : normal_ok normal.
Variables (vshape : list nat) (paths : nat).
Let w := (vshape ++ [paths])%list.
Let dw : G -> R -> R -> res (G * arr R) := at_step (wiener_call normal mvnormal paths vshape PNone).

Lemma dw_value g t dt : exists z, dw g t dt = Ok (snd (normal w g), z) /\ can (shp z) w = true /\
  forall ix, inb w ix -> bget z ix = nth_draw normal w 0 g ix * sqrt (Rabs dt).
Proof.
  destruct (C27_uncorrelated normal mvnormal paths vshape (ascalar t) (ascalar dt) g [] N_ok eq_refl) as (z & g' & dz & EN & D & S & H).
  cbn [app] in EN, S. fold w in EN, S.
  exists dz. unfold dw, at_step. rewrite D. rewrite EN. split; [reflexivity|]. split; [rewrite S; apply can_refl|].
  intros ix HI. rewrite bget_self by (rewrite S; auto). unfold nth_draw. cbn [nth_state]. rewrite EN. cbn [fst].
  specialize (H []  ix). cbn [app] in H. rewrite H; auto. constructor.
Qed.

Variables (sde : R -> arr R -> dict (arr R) -> res (sdeval R)) (log gi : bool) (x0 b : arr R) (args : dict (M_sde.param R R))
  (al ka : list nat -> R).
Hypothesis HX : can (shp x0) w = true.
Hypothesis HS : drift_noise w sde args (fun t x ix => al ix - ka ix * x ix) b.
Let ig : integ R R G I := mk_sde dw_ids (dw_src dw) log sde gi vshape paths x0 args.

Lemma linear_run pace_fn fuel g inf (timeline : list R) t0 gr :
  valid_timeline timeline -> nth_error timeline 0 = Some t0 ->
  (length timeline + length (pace_fn timeline) <= fuel)%nat ->
  grid_spec false timeline (pace_fn timeline) t0 gr ->
  exists s' xx,
    sde_call Rminus ig 0 pace_fn fuel (g, inf) [length timeline] timeline = Ok (s', xx) /\
    length xx = length timeline /\
    forall i ti, nth_error timeline i = Some ti ->
      exists n y, nth_error gr n = Some ti /\ nth_error xx i = Some (Some y) /\
        forall ix, inb w ix ->
          let v := lpath gr (al ix) (ka ix) (bget b ix) (if log then ln (bget x0 ix) else bget x0 ix) (fun m => nth_draw normal w m g ix) n in
          y ix = if log then exp v else v.
Proof.
  intros V0 N0 HF GR. destruct HS as [CB HA]. apply can_broadcasts in CB.
  assert (SI : start_index (length timeline) 0 0). { unfold start_index. destruct timeline; [discriminate|]. cbn. lia. }
  assert (TI : total_integ ig (fun _ => True)).
  { apply dw_total; auto.
    - intros t x. destruct (HA t x) as (a & E & C & _). apply can_broadcasts in C. exists a, b. auto.
    - intros wd t dt _. destruct (dw_value wd t dt) as (z & E & C & _). eauto. }
  destruct (sde_call_total Rminus ig _ TI 0 pace_fn fuel (g, inf) timeline 0%nat Logic.I V0 SI HF) as ([wd' inf'] & xx & E).
  exists (wd', inf'), xx. split; auto.
  assert (RN := sde_call_run Rminus ig 0 pace_fn fuel g inf timeline 0%nat t0 wd' inf' xx V0 SI N0 HF E).
  split. { destruct RN as (? & ? & ? & ? & ? & _ & _ & _ & _ & _ & _ & LX & _). auto. }
  assert (I0 : In t0 timeline) by (eapply nth_error_In; eauto).
  assert (MIN : forall t, In t timeline -> t0 <= t).
  { intros t Ht. destruct timeline as [|a tl]; [easy|]. injection N0 as ->. destruct Ht as [->|Ht]; [lra|].
    destruct V0 as (_ & _ & SS). apply StronglySorted_inv in SS. destruct SS as [_ F]. rewrite Forall_forall in F.
    specialize (F t Ht). apply before_false in F. lra. }
  assert (ND : NoDup gr).
  { destruct GR as [S _]. apply sorted_before in S. clear - S. induction S as [|x l S IH F]; constructor; auto.
    intro H. rewrite Forall_forall in F. specialize (F x H). lra. }
  set (next := fun a c => exists n, nth_error gr n = Some a /\ nth_error gr (S n) = Some c).
  apply (run_link ig _ next) in RN.
  2: { intros rv g0 HG. destruct rv.
    - destruct HG as [S H]. destruct g0 as [|a g0]; [constructor|]. destruct g0 as [|c g0]; [repeat constructor|]. exfalso.
      assert (K : forall t, In t (a :: c :: g0) -> t = t0).
      { intros t Ht. apply InT_R in Ht. apply H in Ht. destruct Ht as [Q1 Q2].
        assert (t0 <= t).
        { destruct Q1 as [Q1|[_ (u & v & Hu & _ & L1 & _)]]; [apply MIN, InT_R; auto|].
          apply tleb_R in L1. apply InT_R in Hu. specialize (MIN u Hu). lra. }
        destruct Q2 as [Q2|Q2]; [apply teqb_R_true in Q2; auto|apply (before_R true) in Q2; simpl in Q2; lra]. }
      assert (a = t0) by (apply K; left; auto). assert (c = t0) by (apply K; right; left; auto). subst.
      apply StronglySorted_inv in S. destruct S as [_ F]. inversion F as [|? ? B]; subst. apply (before_R true) in B. simpl in B. lra.
    - rewrite (grid_same _ _ _ _ _ HG GR). unfold next. clear. 
      assert (K : forall suf pre, gr = pre ++ suf -> Sorted (fun a c => exists n, nth_error gr n = Some a /\ nth_error gr (S n) = Some c) suf).
      { induction suf as [|a suf IH]; intros pre EQ; constructor.
        - apply (IH (pre ++ [a])). rewrite <- app_assoc. auto.
        - destruct suf as [|c suf]; constructor. exists (length pre). rewrite EQ.
          rewrite !nth_error_app2 by lia. replace (length pre - length pre)%nat with 0%nat by lia.
          replace (S (length pre) - length pre)%nat with 1%nat by lia. auto. }
      apply (K gr []). auto. }
  set (vv := fun ix n => lpath gr (al ix) (ka ix) (bget b ix) (if log then ln (bget x0 ix) else bget x0 ix) (fun m => nth_draw normal w m g ix) n).
  set (P := fun (u : G) (t : R) (x : buf R) => exists n, nth_error gr n = Some t /\ u = nth_state normal w n g /\ forall ix, inb w ix -> x ix = vv ix n).
  destruct RN as (gb & gf & wd1 & yb & yf & GB & GF & PB & NB & PF & NF & LX & OF & OB).
  rewrite (NB (fun K => K eq_refl)) in PF. 
  assert (FO : goes_forth (length timeline) 0).
  { unfold goes_forth. destruct timeline; [easy|]. cbn [length]. lia. }
  rewrite (grid_same _ _ _ _ _ GF GR) in PF.
  destruct (PF FO) as (t & todo & x & l & EG & EI & C & F).
  assert (T0 : t = t0).
  { destruct (grid_head false timeline (pace_fn timeline) t0 gr) as (s & g' & EG' & Es); auto.
    - apply teqb_R_true; auto.
    - apply InT_R; auto.
    - rewrite EG in EG'. injection EG' as <- <-. apply teqb_R_true in Es. auto. }
  subst t.
  match type of C with chain ?st _ _ _ _ _ _ => destruct (chain_inv st P) with (wd := g) (t := t0) (x := if ig_log ig then fun ix : list nat => nlog (x ix) else x) (todo := todo) (wd' := wd') (l := l) as [CI _]; auto end.
  - intros u t x1 t' u' x' (n & Hn & -> & HV) [ST (n' & Hn' & HS')]. unfold next_step in ST.
    assert (n' = n).
    { rewrite NoDup_nth_error in ND. apply ND; [apply nth_error_Some; congruence|congruence]. }
    subst n'. destruct (HA t x1) as (a & EA & CA & Ha).
    destruct (dw_next_ok Rminus ig dw a b (nth_state normal w n g) t t' x1 u' x' eq_refl eq_refl) as (z & EZ & HN); auto.
    { cbn [ig_A ig mk_sde]. unfold sde_A. cbn [ig_w ig mk_sde]. fold w. rewrite EA. cbn [rbind]. apply dw_check. }
    destruct (dw_value (nth_state normal w n g) t (t' - t)) as (z1 & EZ1 & _ & HZ). rewrite EZ1 in EZ. injection EZ as <- <-.
    exists (S n). split; auto. split; auto. intros ix HI. rewrite HN by exact HI. rewrite HZ by exact HI. rewrite Ha by auto.
    rewrite HV by auto. unfold vv. cbn [lpath]. unfold gap.
    rewrite (nth_error_nth _ _ 0 Hn), (nth_error_nth _ _ 0 HS').
    change (nth_draw normal w 0 (nth_state normal w n g) ix) with (nth_draw normal w n g ix).
    cbn [nadd nmul nzero Num_R]. ring.
  - exists 0%nat. split; [rewrite EG; auto|]. split; auto. intros ix HI.
    simpl in EI. unfold sde_init in EI. fold w in EI. rewrite assign_can in EI by auto. injection EI as <-.
    unfold vv. cbn [lpath]. unfold logi. cbn [ig_log ig mk_sde]. destruct log; reflexivity.
  - intros i ti Ni. cbn [skipn] in F.
    destruct (Forall2_nth _ _ _ _ _ F Ni) as (y & Ny & t & x1 & u & Hin & Et & EL).
    apply teqb_R_true in Et. subst t. destruct (CI _ _ _ Hin) as (n & Hn & _ & HV).
    exists n, (fin ig y). split; auto. specialize (OF FO _ _ Ny). split; [exact OF|]. intros ix HI v.
    simpl in EL. unfold sde_let in EL. rewrite assign_can in EL by apply can_refl. injection EL as <-.
    unfold fin. cbn [ig_log ig mk_sde]. fold w.
    assert (EV : bget (mkArr w x1) ix = v). { rewrite bget_self by auto. cbn [dat]. rewrite HV by auto. reflexivity. }
    destruct log; cbn [nexp Num_R]; rewrite EV; reflexivity.
Qed.
End Run.

(** values, for random initial states *)
Lemma sorted_nth (Q : R -> R -> Prop) l : Sorted Q l -> forall n, (S n < length l)%nat -> Q (nth n l 0) (nth (S n) l 0).
Proof.
  intro S. induction S as [|x l S IH F]; intros n Hn; [cbn in Hn; lia|].
  destruct n as [|n].
  - destruct l as [|y l]; [cbn in Hn; lia|]. inversion F; subst. auto.
  - apply (IH n). cbn in Hn. lia.
Qed.
Lemma sorted_lt l : StronglySorted Rlt l -> Sorted Rlt l.
Proof. apply StronglySorted_Sorted. Qed.

Section Values.
Context {G I Omega : Type}.
Variables (normal : list nat -> G -> res (arr R) * G) (mvnormal : arr R -> list nat -> G -> res (arr R) * G).
Hypothesis N_ok : normal_ok normal.
Variables (vshape : list nat) (paths : nat).
Let w := (vshape ++ [paths])%list.
Let dw : G -> R -> R -> res (G * arr R) := at_step (wiener_call normal mvnormal paths vshape PNone).
Variables (E : (Omega -> R) -> R) (g : Omega -> G).
Hypothesis HE : linear E.
Hypothesis H1 : E (fun _ => 1) = 1.
Variables (sde : R -> arr R -> dict (arr R) -> res (sdeval R)) (log gi : bool) (x0 b : arr R) (args : dict (M_sde.param R R))
  (al ka : list nat -> R).
Hypothesis HX : can (shp x0) w = true.
Hypothesis HS : drift_noise w sde args (fun t x ix => al ix - ka ix * x ix) b.
Let ig : integ R R G I := mk_sde dw_ids (dw_src dw) log sde gi vshape paths x0 args.

Lemma linear_moments pace_fn fuel inf (timeline : list R) t0 h :
  valid_timeline timeline -> nth_error timeline 0 = Some t0 ->
  (length timeline + length (pace_fn timeline) <= fuel)%nat ->
  fine h timeline (pace_fn timeline) -> white normal w (length timeline + length (pace_fn timeline)) E g ->
  let run o := sde_call Rminus ig 0 pace_fn fuel (g o, inf) [length timeline] timeline in
  (forall o, exists s' xx, run o = Ok (s', xx)) /\
  exists gr, (forall n, (S n < length gr)%nat -> 0 < gap gr n <= h) /\ nth 0 gr 0 = t0 /\
    (forall B, (forall t, In t timeline -> t <= B) -> forall n, (n < length gr)%nat -> t0 <= nth n gr 0 <= B) /\
  forall i ti ix, nth_error timeline i = Some ti -> inb w ix ->
    exists n, (n < length gr)%nat /\ nth n gr 0 = ti /\
      let x := if log then ln (bget x0 ix) else bget x0 ix in
      let V o := if log then ln (value_at (run o) i ix) else value_at (run o) i ix in
      E V = mpath gr (al ix) (ka ix) x n /\
      E (fun o => (V o - E V) * (V o - E V)) = vpath gr (ka ix) (bget b ix) n.
Proof.
  intros V0 N0 HF FI HW run.
  destruct (grid_exists timeline (pace_fn timeline) t0) as (gr & GR).
  assert (RUN := fun o => linear_run (I := I) normal mvnormal N_ok vshape paths sde log gi x0 b args al ka HX HS pace_fn fuel (g o) inf timeline t0 gr V0 N0 HF GR).
  split. { intro o. destruct (RUN o) as (s' & xx & EQ & _). exists s', xx. exact EQ. }
  assert (I0 : In t0 timeline) by (eapply nth_error_In; eauto).
  assert (SG : StronglySorted Rlt gr) by (destruct GR as [S _]; apply sorted_before; auto).
  exists gr.
  assert (MX : exists B, forall t, In t timeline -> t0 <= t <= B).
  { assert (MIN : forall t, In t timeline -> t0 <= t).
    { intros t Ht. destruct timeline as [|a tl]; [easy|]. injection N0 as ->. destruct Ht as [->|Ht]; [lra|].
      destruct V0 as (_ & _ & SS). apply StronglySorted_inv in SS. destruct SS as [_ F]. rewrite Forall_forall in F.
      specialize (F t Ht). apply before_false in F. lra. }
    assert (MX : forall l : list R, exists B, forall t, In t l -> t <= B).
    { induction l as [|y l (B & HB)]; [exists 0; easy|]. exists (Rmax y B). intros t [<-|Ht]; [apply Rmax_l|].
      apply Rle_trans with B; auto. apply Rmax_r. }
    destruct (MX timeline) as (B & HB). exists B. intros t Ht. auto. }
  destruct MX as (B0 & HB0).
  split; [|split; [|split]].
  - intros n Hn. assert (Q1 := sorted_nth _ _ (sorted_lt _ SG) n Hn).
    destruct (sorted_nth _ _ (grid_away h t0 B0 _ _ _ _ _ FI I0 HB0 GR) n Hn) as (_ & _ & Q2 & _).
    unfold gap in *. rewrite Rabs_right in Q2 by lra. lra.
  - destruct (grid_head false timeline (pace_fn timeline) t0 gr) as (s & g' & EG' & Es); auto.
    + apply teqb_R_true; auto.
    + apply InT_R; auto.
    + rewrite EG'. apply teqb_R_true in Es. auto.
  - intros B HB n Hn. assert (Ht := nth_In gr 0 Hn). set (t := nth n gr 0) in *. apply InT_R in Ht. apply GR in Ht.
    destruct Ht as [Q1 Q2]. split.
    + destruct Q2 as [Q2|Q2]; [apply teqb_R_true in Q2; lra|apply before_false in Q2; lra].
    + destruct Q1 as [Q1|[_ (u & v & _ & Hv & _ & L2)]]; [apply HB, InT_R; auto|].
      apply tleb_R in L2. apply InT_R in Hv. specialize (HB v Hv). lra.
  - intros i ti ix Ni HI.
    assert (ND : NoDup gr).
    { clear - SG. induction SG as [|x l S IH F]; constructor; auto. intro H. rewrite Forall_forall in F. specialize (F x H). lra. }
    assert (IG : In ti gr).
    { apply InT_R. apply GR. apply nth_error_In in Ni. split; [left; apply InT_R; auto|].
      destruct (HB0 ti Ni) as [[L|L] _]; [right; apply before_false; auto|left; apply teqb_R_true; auto]. }
    apply In_nth_error in IG. destruct IG as (n & Hn). exists n.
    split; [apply nth_error_Some; congruence|]. split; [apply nth_error_nth; auto|].
    intros x V.
    assert (EV : forall o, V o = lpath gr (al ix) (ka ix) (bget b ix) x (fun m => nth_draw normal w m (g o) ix) n).
    { intro o. destruct (RUN o) as (s' & xx & EQ & _ & H). destruct (H i ti Ni) as (n' & y & Hn' & Ny & Hy).
      assert (n' = n). { rewrite NoDup_nth_error in ND. apply ND; [apply nth_error_Some; congruence|congruence]. }
      subst n'. specialize (Hy ix HI). cbv zeta in Hy.
      assert (EV : value_at (run o) i ix = y ix).
      { unfold value_at, run, ig, dw. rewrite EQ, Ny. reflexivity. }
      unfold V. rewrite EV, Hy. fold x. destruct log; rewrite ?ln_exp; reflexivity. }
    set (N := (length timeline + length (pace_fn timeline))%nat) in *.
    assert (NL : (n <= N)%nat).
    { assert (length gr <= N)%nat.
      { unfold N. rewrite <- app_length. apply NoDup_incl_length; auto. intros t Ht. apply InT_R in Ht. apply GR in Ht.
        apply in_or_app. destruct Ht as [[Ht|[Ht _]] _]; apply InT_R in Ht; auto. }
      assert (n < length gr)%nat by (apply nth_error_Some; congruence). lia. }
    assert (X1 := fun n Hn => proj1 (HW ix HI n Hn)). assert (X2 := fun n m Hn => proj2 (HW ix HI n Hn) m).
    assert (EM : E V = mpath gr (al ix) (ka ix) x n).
    { rewrite (proj1 HE _ _ EV). apply (lpath_mean gr _ _ (bget b ix) x E (fun m o => nth_draw normal w m (g o) ix)) with (N := N); auto. }
    split; auto.
    rewrite EM. rewrite (proj1 HE _ (fun o => (lpath gr (al ix) (ka ix) (bget b ix) x (fun m => nth_draw normal w m (g o) ix) n - mpath gr (al ix) (ka ix) x n) *
      (lpath gr (al ix) (ka ix) (bget b ix) x (fun m => nth_draw normal w m (g o) ix) n - mpath gr (al ix) (ka ix) x n))).
    2: { intro o. rewrite EV. reflexivity. }
    apply (lpath_var gr _ _ (bget b ix) x E (fun m o => nth_draw normal w m (g o) ix)) with (N := N); auto.
Qed.
End Values.

(** without mean reversion the moments are those of the process *)
Lemma mpath_const gr al x n : mpath gr al 0 x n = x + al * (nth n gr 0 - nth 0 gr 0).
Proof. induction n as [|n IH]; cbn [mpath]; [ring|]. rewrite IH. unfold gap. ring. Qed.
Lemma vpath_const gr sg n : (forall n, (S n < length gr)%nat -> 0 < gap gr n) -> (n < length gr)%nat ->
  vpath gr 0 sg n = sg * sg * (nth n gr 0 - nth 0 gr 0).
Proof.
  intros GP. induction n as [|n IH]; intro Hn; cbn [vpath]; [ring|]. rewrite IH by lia.
  specialize (GP n Hn). rewrite Rabs_right by lra. unfold gap. ring.
Qed.

Lemma exp_lip c u v : u <= c -> v <= c -> Rabs (exp u - exp v) <= exp c * Rabs (u - v).
Proof.
  assert (K : forall u v, u <= v -> v <= c -> exp v - exp u <= exp c * (v - u)).
  { clear. intros u v UV VC. assert (E := one_plus_exp (u - v)).
    assert (E2 : exp u = exp v * exp (u - v)) by (rewrite <- exp_plus; f_equal; ring).
    assert (P := exp_pos v). assert (EC := exp_le v c VC).
    apply Rle_trans with (exp v * (v - u)).
    - rewrite E2. assert (exp v * (1 + (u - v)) <= exp v * exp (u - v)) by (apply Rmult_le_compat_l; lra). lra.
    - apply Rmult_le_compat_r; lra. }
  intros UC VC. destruct (Rle_or_lt u v) as [L|L].
  - assert (exp u <= exp v) by (apply exp_le; auto). rewrite (Rabs_left1 (exp u - _)), (Rabs_left1 (u - v)) by lra.
    specialize (K u v L VC). lra.
  - assert (exp v <= exp u) by (apply exp_le; lra). rewrite (Rabs_right (exp u - _)), (Rabs_right (u - v)) by lra.
    specialize (K v u ltac:(lra) UC). lra.
Qed.
Lemma fine_exists timeline pc : exists h, fine h timeline pc.
Proof.
  assert (MX : exists B, forall t, In t timeline -> - B <= t <= B).
  { induction timeline as [|y l (B & HB)]; [exists 0; easy|]. exists (Rmax (Rabs y) B). intros t [<-|Ht].
    - assert (Q := Rmax_l (Rabs y) B). assert (Q1 := Rle_abs y). assert (Q2 := Rle_abs (- y)). rewrite Rabs_Ropp in Q2. lra.
    - assert (Q := Rmax_r (Rabs y) B). specialize (HB t Ht). lra. }
  destruct MX as (B & HB). exists (2 * B). intros u v a b Hu Hv L1 L2 L3. apply HB in Hu. apply HB in Hv. lra.
Qed.

(** the coefficients of the presets *)
Section Presets.
Variables (w : list nat) (args : dict (M_sde.param R R)).
Lemma wiener_drift mu sigma : const_arg args "mu" mu -> const_arg args "sigma" sigma ->
  broadcasts (shp mu) w -> broadcasts (shp sigma) w ->
  drift_noise w wiener_sde args (fun t x ix => bget mu ix - 0 * x ix) sigma.
Proof.
  intros CM CS BM BS. split; auto. intros t x. exists mu. split; [|split; auto].
  - unfold wiener_sde. rewrite (arg_eval _ _ _ _ CM), (arg_eval _ _ _ _ CS). reflexivity.
  - intros ix _. ring.
Qed.
Lemma lognorm_drift mu sigma : const_arg args "mu" mu -> const_arg args "sigma" sigma ->
  broadcasts (shp mu) w -> broadcasts (shp sigma) w ->
  drift_noise w lognorm_sde args (fun t x ix => (bget mu ix - bget sigma ix * bget sigma ix / 2) - 0 * x ix) sigma.
Proof.
  intros CM CS BM BS. split; auto. intros t x. apply can_broadcasts in BM. apply can_broadcasts in BS.
  assert (D : exists d, log_drift mu sigma = Ok d /\ can (shp d) w = true /\ forall ix, bget d ix = bget mu ix - bget sigma ix * bget sigma ix / 2).
  { unfold log_drift.
    destruct (aop_ok nmul sigma sigma w BS BS) as (ss & E1 & C3). rewrite E1. cbn [rbind].
    destruct (aop_ok ndiv ss two w C3 (can_nil _)) as (h & E2 & C4). rewrite E2. cbn [rbind].
    destruct (aop_ok nsub mu h w BM C4) as (d & E3 & C5). rewrite E3. exists d. repeat split; auto.
    intros ix. rewrite (aop_get _ _ _ _ ix E3), (aop_get _ _ _ _ ix E2), (aop_get _ _ _ _ ix E1). reflexivity. }
  destruct D as (d & ED & CD & HD). exists d. split; [|split; [apply can_broadcasts; auto|]].
  - unfold lognorm_sde. rewrite (arg_eval _ _ _ _ CM), (arg_eval _ _ _ _ CS). cbn [rbind peval]. rewrite ED. reflexivity.
  - intros ix _. rewrite HD. ring.
Qed.
Lemma ou_drift theta k sigma : const_arg args "theta" theta -> const_arg args "k" k -> const_arg args "sigma" sigma ->
  broadcasts (shp theta) w -> broadcasts (shp k) w -> broadcasts (shp sigma) w ->
  drift_noise w ou_sde args (fun t x ix => bget k ix * bget theta ix - bget k ix * x ix) sigma.
Proof.
  intros CT CK CS BT BK BS. split; auto. intros t x. apply can_broadcasts in BT. apply can_broadcasts in BK.
  assert (D : exists d, revert k theta (mkArr w x) = Ok d /\ can (shp d) w = true /\ forall ix, inb w ix -> bget d ix = bget k ix * (bget theta ix - x ix)).
  { unfold revert. destruct (aop_ok nsub theta (mkArr w x) w BT (can_refl w)) as (d1 & E1 & C1). rewrite E1. cbn [rbind].
    destruct (aop_ok nmul k d1 w BK C1) as (d & E2 & C2). rewrite E2. exists d. repeat split; auto.
    intros ix HI. rewrite (aop_get _ _ _ _ ix E2), (aop_get _ _ _ _ ix E1), (bget_self (mkArr w x)) by auto. reflexivity. }
  destruct D as (d & ED & CD & HD). exists d. split; [|split; [apply can_broadcasts; auto|]].
  - unfold ou_sde. rewrite (arg_eval _ _ _ _ CT), (arg_eval _ _ _ _ CK), (arg_eval _ _ _ _ CS). cbn [rbind peval]. rewrite ED. reflexivity.
  - intros ix HI. rewrite HD by auto. ring.
Qed.
End Presets.
