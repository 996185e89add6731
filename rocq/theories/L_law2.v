(** Lemmas on means of exponentials of the increments given by sources. *)
From Coq Require Import List Arith Bool ZArith Reals Lra Lia.
From Coquelicot Require Import Coquelicot.
From Verif Require Import Base BaseNum BaseArr BaseNd BaseIdx M_process M_source S_mc S_process S_source L_nd L_process L_process2 L_source M_rv S_rv L_rv M_analytical S_analytical
  L_mix S_euler S_law P_chf L_law M_sde M_integrate S_integrate P_source P_source3 L_euler2.
Import ListNotations.
Local Open Scope R_scope.

(** *** sums and products over lists of indices *)
Lemma cprod_filter {A} (f : A -> C) p l : cprod f (filter p l) = cprod (fun x => if p x then f x else 1%C) l.
Proof. unfold cprod. induction l as [|a l IH]; cbn [filter map fold_right]; auto. destruct (p a); cbn [map fold_right]; rewrite IH; ring. Qed.
Lemma csum_filter {A} (f : A -> C) p l : csum f (filter p l) = csum (fun x => if p x then f x else 0%C) l.
Proof. unfold csum. induction l as [|a l IH]; cbn [filter map fold_right]; auto. destruct (p a); cbn [map fold_right]; rewrite IH; ring. Qed.
Lemma cprod_nth {A} (f : A -> C) d l : cprod f l = cprod (fun k => f (nth k l d)) (seq 0 (List.length l)).
Proof. unfold cprod. induction l as [|a l IH]; cbn [List.length seq map fold_right nth]; auto. rewrite IH, <- seq_shift, map_map. reflexivity. Qed.
Lemma csum_nth {A} (f : A -> C) d l : csum f l = csum (fun k => f (nth k l d)) (seq 0 (List.length l)).
Proof. unfold csum. induction l as [|a l IH]; cbn [List.length seq map fold_right nth]; auto. rewrite IH, <- seq_shift, map_map. reflexivity. Qed.
Lemma csum_app {A} (f : A -> C) l l' : csum f (l ++ l') = (csum f l + csum f l')%C.
Proof. unfold csum. induction l as [|a l IH]; cbn [map fold_right app]; [ring|]. rewrite IH. ring. Qed.
Lemma cprod_flat {A B} (f : B -> C) (h : A -> list B) l : cprod f (flat_map h l) = cprod (fun x => cprod f (h x)) l.
Proof. induction l as [|a l IH]; [reflexivity|]. cbn [flat_map]. rewrite cprod_app, IH. reflexivity. Qed.
Lemma csum_flat {A B} (f : B -> C) (h : A -> list B) l : csum f (flat_map h l) = csum (fun x => csum f (h x)) l.
Proof. induction l as [|a l IH]; [reflexivity|]. cbn [flat_map]. rewrite csum_app, IH. reflexivity. Qed.
Lemma cprod_map {A B} (f : B -> C) (h : A -> B) l : cprod f (map h l) = cprod (fun x => f (h x)) l.
Proof. unfold cprod. rewrite map_map. reflexivity. Qed.
Lemma csum_map {A B} (f : B -> C) (h : A -> B) l : csum f (map h l) = csum (fun x => f (h x)) l.
Proof. unfold csum. rewrite map_map. reflexivity. Qed.
Lemma csum_scal {A} (f : A -> C) c l : csum (fun x => c * f x)%C l = (c * csum f l)%C.
Proof. unfold csum. induction l as [|a l IH]; cbn [map fold_right]; [ring|]. rewrite IH. ring. Qed.
Lemma cprod_const {A} (c : C) (l : list A) : cprod (fun _ => c) l = cpw c (List.length l).
Proof. unfold cprod. induction l as [|a l IH]; cbn [map fold_right List.length cpw]; auto. rewrite IH. reflexivity. Qed.
Lemma nd2_sum (f : list nat -> C) m j : csum f (ndindex [m; j]) = csum (fun k => csum (fun i => f [k; i]) (seq 0 j)) (seq 0 m).
Proof.
  change (ndindex [m; j]) with (flat_map (fun i => map (cons i) (ndindex [j])) (seq 0 m)). rewrite csum_flat. apply csum_ext. intros k _. rewrite csum_map, ndindex_1, csum_map. reflexivity.
Qed.
Lemma nd2_prod (f : list nat -> C) m j : cprod f (ndindex [m; j]) = cprod (fun k => cprod (fun i => f [k; i]) (seq 0 j)) (seq 0 m).
Proof.
  change (ndindex [m; j]) with (flat_map (fun i => map (cons i) (ndindex [j])) (seq 0 m)). rewrite cprod_flat. apply cprod_ext. intros k _. rewrite cprod_map, ndindex_1, cprod_map. reflexivity.
Qed.
Lemma total_csum l : RtoC (total l) = csum RtoC l.
Proof. unfold csum. induction l as [|a l IH]; [reflexivity|]. cbn [total map fold_right]. rewrite RtoC_plus. f_equal. exact IH. Qed.

Section Progs.
Context {G : Type}.
Variable L : nat -> (G -> R) -> R.
Hypothesis HL : is_law L.
(** the mean of Psi is z, for generators with at least D draws left *)
Definition em (D : nat) (Psi : G -> C) (z : C) : Prop :=
  forall d c, (D <= d)%nat -> has_mean (L d) (fun g => c * Psi g)%C (c * z)%C.
Lemma hm_ext d Phi Psi z : (forall g, Phi g = Psi g) -> has_mean (L d) Phi z -> has_mean (L d) Psi z.
Proof. intros E [H1 H2]. destruct HL as [X _]. split; [rewrite <- H1|rewrite <- H2]; apply X; intro g; rewrite E; reflexivity. Qed.
Lemma em_ext D Phi Psi z : (forall g, Phi g = Psi g) -> em D Phi z -> em D Psi z.
Proof. intros E H d c Hd. eapply hm_ext; [|apply H; auto]. intro g. cbv beta. rewrite E. reflexivity. Qed.
Lemma em_le D D' Psi z : (D <= D')%nat -> em D Psi z -> em D' Psi z.
Proof. intros LE H d c Hd. apply H. lia. Qed.
Lemma em_one D : em D (fun _ => 1%C) 1%C.
Proof. intros d c _. destruct HL as [_ X]. split; rewrite X; reflexivity. Qed.
Lemma em_scal D Psi z c : em D Psi z -> em D (fun g => c * Psi g)%C (c * z)%C.
Proof. intros H d c' Hd. rewrite Cmult_assoc. eapply hm_ext; [|apply (H d (c' * c)%C Hd)]. intro g. cbv beta. ring. Qed.
Lemma em_draw {A} (draw : G -> res (arr A) * G) s sup M (HD : draws_law L draw s sup M) D Phi F m z :
  (forall a, shp a = s -> (forall ix, inb s ix -> sup (dat a ix)) -> em D (Phi a) (cprod (fun ix => F ix (dat a ix)) (ndindex s) * z)%C) ->
  (forall ix, inb s ix -> M ix (F ix) (m ix)) -> em (S D) (after draw Phi) (cprod m (ndindex s) * z)%C.
Proof.
  intros H HM d c Hd. destruct d as [|d]; [lia|].
  assert (K := HD d (fun a g => c * Phi a g)%C F m (c * z)%C). eapply hm_ext.
  2: { replace (c * (cprod m (ndindex s) * z))%C with (cprod m (ndindex s) * (c * z))%C by ring. apply K; auto. intros a Sa Ha.
       replace (cprod (fun ix => F ix (dat a ix)) (ndindex s) * (c * z))%C with (c * (cprod (fun ix => F ix (dat a ix)) (ndindex s) * z))%C by ring. apply (H a Sa Ha). lia. }
  intro g. unfold after. destruct (draw g) as [[a|] g']; ring.
Qed.

(** *** programs *)
Lemma after_dbind {A B} (m : @draws G A) (f : A -> @draws G B) Phi g : after (dbind m f) Phi g = after m (fun a => after (f a) Phi) g.
Proof. unfold after, dbind. destruct (m g) as [[a|] g']; reflexivity. Qed.
Lemma after_dret {A} (a : A) Phi (g : G) : after (dret a) Phi g = Phi a g.
Proof. reflexivity. Qed.
Lemma after_dres {A} (a : A) Phi (g : G) : after (dres (Ok a)) Phi g = Phi a g.
Proof. reflexivity. Qed.
Lemma after_ext {A} (m : @draws G A) Phi Psi (g : G) : (forall a g', m g = (Ok a, g') -> Phi a g' = Psi a g') -> after m Phi g = after m Psi g.
Proof. intro H. unfold after. destruct (m g) as [[a|] g'] eqn:E; auto. Qed.

(** *** increments of the Wiener source *)
Section Wiener.
Variables (normal : list nat -> G -> res (arr R) * G) (mvnormal : arr R -> list nat -> G -> res (arr R) * G).
Hypothesis N_ok : normal_ok normal.
Variables (vshape : list nat) (paths : nat).
Let w := (vshape ++ [paths])%list.
Hypothesis N_law : normal_law L normal w.
Definition step_of (src : G -> R -> R -> res (G * arr R)) (s : list nat) (u : list nat -> C) (t dt : R) (Psi : G -> C) (g : G) : C :=
  match src g t dt with Ok (g', a) => (cexp (csum (fun ix => u ix * RtoC (bget a ix))%C (ndindex s)) * Psi g')%C | Err _ => 0%C end.
Lemma em_dw u t dt D Psi z : em D Psi z ->
  em (S D) (step_of (at_step (wiener_call normal mvnormal paths vshape PNone)) w u t dt Psi)
     (cprod (fun ix => cexp (RtoC (Rabs dt/2) * (u ix * u ix))%C) (ndindex w) * z)%C.
Proof.
  intro H. set (c := sqrt (Rabs dt)).
  apply em_ext with (after (normal w) (fun a g' => (cprod (fun ix => cexp ((u ix * RtoC c) * RtoC (dat a ix)))%C (ndindex w) * Psi g')%C)).
  { intro g. unfold step_of, after. destruct (dw_value normal mvnormal N_ok vshape paths g t dt) as (y & E & _ & Hy). fold w in E, Hy. rewrite E.
    destruct (N_ok w g) as (a & g' & EN & _). rewrite EN in *. cbn [snd]. f_equal. rewrite cexp_csum. apply cprod_ext. intros ix I. f_equal. rewrite Hy by (apply in_ndindex; auto).
    unfold nth_draw. cbn [nth_state]. rewrite EN. cbn [fst]. rewrite RtoC_mult. fold c. ring. }
  apply (em_draw (normal w) w _ _ N_law D _ (fun ix x => cexp ((u ix * RtoC c) * RtoC x)%C)).
  - intros a Sa _. apply em_scal. exact H.
  - intros ix _. replace (RtoC (Rabs dt/2) * (u ix * u ix))%C with ((u ix * RtoC c) * (u ix * RtoC c) * RtoC (/2))%C; [apply normal_exp|].
    transitivity (RtoC (c*c) * RtoC (/2) * (u ix * u ix))%C; [rewrite RtoC_mult; ring|]. rewrite <- RtoC_mult. unfold c. rewrite sqrt_sqrt by apply Rabs_pos. reflexivity.
Qed.
End Wiener.

(** *** jumps *)
Section Jumps.
Variable rvs : R -> nat -> nat -> G -> res (arr R) * G.
Hypothesis RV_ok : rvs_ok rvs.
Variables (Dm : C -> Prop) (J : C -> C) (q : nat).
Hypothesis D0 : Dm 0%C.
(** entries of samples are independent, and J gives the means of their exponentials; q draws for each sample *)
Definition jump_law : Prop := forall t m j u D Psi z, (forall ix, Dm (u ix)) -> em D Psi z ->
  em (q + D) (after (rvs t m j) (fun y g' => (cexp (csum (fun ix => u ix * RtoC (dat y ix))%C (ndindex [m; j])) * Psi g')%C))
    (cprod (fun ix => J (u ix)) (ndindex [m; j]) * z)%C.
Hypothesis RV_law : jump_law.

Definition counted (pos : arr Z) (js : list nat) (ix : list nat) : bool := existsb (fun j => (dat pos ix =? Z.of_nat j)%Z) js.
Definition need (pos : arr Z) (js : list nat) : nat := List.length (filter (counted pos js) (ndindex (shp pos))).
Lemma filter_or {A} (a b : A -> bool) l : (forall x, a x = true -> b x = false) ->
  List.length (filter (fun x => a x || b x) l) = (List.length (filter a l) + List.length (filter b l))%nat.
Proof.
  intro H. induction l as [|x l IH]; cbn [filter]; auto. specialize (H x). destruct (a x), (b x); cbn [orb List.length]; rewrite ?IH; lia.
Qed.
Lemma counted_disjoint pos j js ix : ~ In j js -> (dat pos ix =? Z.of_nat j)%Z = true -> counted pos js ix = false.
Proof.
  intros N E. unfold counted. destruct (existsb _ js) eqn:X; auto. apply existsb_exists in X. destruct X as (k & K & Ek). apply Z.eqb_eq in E, Ek. assert (k = j) by lia. subst. contradiction.
Qed.
Lemma need_cons pos j js : NoDup (j :: js) ->
  need pos (j :: js) = (List.length (filter (fun ix => (dat pos ix =? Z.of_nat j)%Z) (ndindex (shp pos))) + need pos js)%nat.
Proof.
  intro ND. inversion ND; subst. unfold need at 1. change (counted pos (j :: js)) with (fun ix => (dat pos ix =? Z.of_nat j)%Z || counted pos js ix). apply filter_or. intros ix. apply counted_disjoint; auto.
Qed.
Lemma need_le pos js : (need pos js <= List.length (ndindex (shp pos)))%nat.
Proof. unfold need. generalize (ndindex (shp pos)). intro l. induction l as [|x l IH]; cbn [filter List.length]; [lia|]. destruct (counted pos js x); cbn [List.length]; lia. Qed.

Lemma jump_sample_some s tm pos j : let e := filter (fun ix => (dat pos ix =? Z.of_nat j)%Z) (ndindex (shp pos)) in e <> [] ->
  jump_sample rvs s tm pos j = dbind (rvs tm (List.length e) j) (fun y => dbind (dres (masked s (shp pos) (List.length e))) (fun _ => dret (Some (e, y)))).
Proof. cbv zeta. unfold jump_sample. destruct (filter _ _); [contradiction|reflexivity]. Qed.
(** one sample: the sums of its rows are assigned to the entries *)
Lemma sample_sum (u : list nat -> C) (y : arr R) (e : list (list nat)) j : NoDup e -> shp y = [List.length e; j] ->
  csum (fun ix => u ix * RtoC (match position ix e with Some k => total (row y [k]) | None => 0 end))%C e =
  csum (fun ix => u (nth (nth 0 ix 0%nat) e []) * RtoC (dat y ix))%C (ndindex [List.length e; j]).
Proof.
  intros ND Sy. rewrite (csum_nth _ [] e), nd2_sum. apply csum_ext. intros k K. apply in_seq in K. rewrite position_nth by (auto; lia). cbn [nth].
  rewrite csum_scal. f_equal. rewrite total_csum. unfold row. rewrite Sy. cbn [last app]. rewrite csum_map. reflexivity.
Qed.

Lemma em_samples tm pos js : NoDup js -> forall u D Psi z, (forall ix, Dm (u ix)) -> em D Psi z ->
  em (q * need pos js + D)
     (after (each (fun j => jump_sample rvs (shp pos) tm pos j) js) (fun l g' =>
        (cexp (csum (fun ix => u ix * RtoC (total (jlist (the_samples l) ix)))%C (ndindex (shp pos))) * Psi g')%C))
     (cprod (fun ix => if counted pos js ix then cpw (J (u ix)) (Z.to_nat (dat pos ix)) else 1%C) (ndindex (shp pos)) * z)%C.
Proof.
  intro ND. induction js as [|j js IH]; intros u D Psi z HD HP.
  - eapply em_le with (D := D); [lia|]. eapply em_ext; [|].
    2: { rewrite (cprod_ext _ (fun _ => 1%C)) by reflexivity. rewrite cprod_one, Cmult_1_l. exact HP. }
    intro g. cbn [each]. rewrite after_dret. cbn [the_samples flat_map jlist total].
    rewrite (csum_ext _ (fun _ => (0 * 0)%C)) by (intros; rewrite !Cmult_0_l, Cmult_0_r; reflexivity). rewrite csum_scal, Cmult_0_l, cexp_0. ring.
  - set (e := filter (fun ix => (dat pos ix =? Z.of_nat j)%Z) (ndindex (shp pos))).
    assert (NI : ~ In j js) by (inversion ND; auto). assert (ND' : NoDup js) by (inversion ND; auto).
    assert (EI : forall r, In r e <-> In r (ndindex (shp pos)) /\ dat pos r = Z.of_nat j) by (intro r; unfold e; rewrite filter_In, Z.eqb_eq; tauto).
    assert (NE : NoDup e) by (apply NoDup_filter, NoDup_ndindex).
    assert (NC := need_cons pos j js ND). fold e in NC.
    destruct (list_eq_dec (list_eq_dec Nat.eq_dec) e []) as [E0|E0].
    + rewrite E0 in NC. cbn [List.length plus] in NC. rewrite NC. eapply em_ext; [|].
      2: { rewrite (cprod_ext _ (fun ix => if counted pos js ix then cpw (J (u ix)) (Z.to_nat (dat pos ix)) else 1%C)); [apply (IH ND' u D Psi z HD HP)|].
           intros ix I. unfold counted. cbn [existsb]. destruct (Z.eqb_spec (dat pos ix) (Z.of_nat j)) as [Q|Q]; auto. exfalso. assert (X : In ix e) by (apply EI; auto). rewrite E0 in X. exact X. }
      intro g. cbn [each]. rewrite after_dbind. unfold jump_sample at 2. fold e. rewrite E0, after_dret, after_dbind. apply after_ext. intros l g' _. rewrite after_dret. reflexivity.
    + set (u' := fun ix => if (dat pos ix =? Z.of_nat j)%Z then RtoC 0 else u ix).
      assert (HD' : forall ix, Dm (u' ix)) by (intro ix; unfold u'; destruct (_ =? _)%Z; auto).
      specialize (IH ND' u' D Psi z HD' HP).
      set (Psi' := after (each (fun j => jump_sample rvs (shp pos) tm pos j) js) (fun l g' =>
        (cexp (csum (fun ix => u' ix * RtoC (total (jlist (the_samples l) ix)))%C (ndindex (shp pos))) * Psi g')%C)) in *.
      set (z' := (cprod (fun ix => if counted pos js ix then cpw (J (u' ix)) (Z.to_nat (dat pos ix)) else 1%C) (ndindex (shp pos)) * z)%C) in *.
      set (v := fun ix : list nat => u (nth (nth 0 ix 0%nat) e [])).
      assert (K := RV_law tm (List.length e) j v (q * need pos js + D)%nat Psi' z' (fun ix => HD _) IH).
      assert (LE : (1 <= List.length e)%nat) by (destruct e; [contradiction|cbn; lia]).
      eapply em_le with (D := (q + (q * need pos js + D))%nat); [rewrite NC; nia|]. eapply em_ext; [|].
      2: { replace (cprod _ (ndindex (shp pos)) * z)%C with (cprod (fun ix => J (v ix)) (ndindex [List.length e; j]) * z')%C; [exact K|].
           unfold z'. rewrite Cmult_assoc. f_equal. rewrite nd2_prod. unfold v. cbn [nth].
           rewrite (cprod_ext (fun k => cprod (fun _ => J (u (nth k e []))) (seq 0 j)) (fun k => cpw (J (u (nth k e []))) j)) by (intros; rewrite cprod_const, seq_length; reflexivity).
           rewrite <- (cprod_nth (fun ix => cpw (J (u ix)) j) [] e). unfold e. rewrite cprod_filter, <- cprod_mult. apply cprod_ext. intros ix _.
           unfold u'. change (counted pos (j :: js) ix) with ((dat pos ix =? Z.of_nat j)%Z || counted pos js ix).
           destruct (dat pos ix =? Z.of_nat j)%Z eqn:Q; cbn [orb].
           - rewrite (counted_disjoint pos j js ix NI Q). apply Z.eqb_eq in Q. rewrite Q, Nat2Z.id. ring.
           - ring. }
      intro g. cbn [each]. rewrite after_dbind. rewrite jump_sample_some by exact E0. fold e.
      rewrite after_dbind. apply after_ext. intros y g' EY. assert (Sy := RV_ok _ _ _ _ _ _ EY). rewrite after_dbind, masked_self, after_dres, after_dret, after_dbind.
      unfold Psi', after. destruct (each _ js g') as [[l|] g2]; [|ring]. unfold dret.
      rewrite Cmult_assoc. f_equal. rewrite <- cexp_add. f_equal. unfold v. rewrite <- (sample_sum u y e j NE Sy). unfold e at 2. rewrite csum_filter, <- csum_plus. apply csum_ext.
      intros ix I. cbn [the_samples flat_map snd app jlist]. fold (the_samples l). unfold u'. destruct (dat pos ix =? Z.of_nat j)%Z eqn:Q.
      * apply Z.eqb_eq in Q. destruct (position ix e) as [k|] eqn:P; [ring|]. apply position_none in P. destruct P. apply EI. auto.
      * apply Z.eqb_neq in Q. destruct (position ix e) as [k|] eqn:P; [|ring]. apply position_some in P. destruct P as [P1 P2]. exfalso. apply Q. apply EI. rewrite <- P2. apply nth_In; auto.
Qed.

Variable poisson : arr R -> list nat -> G -> res (arr Z) * G.
Hypothesis P_ok : poisson_ok poisson.
Variables (vshape : list nat) (paths : nat) (lam : arr R).
Let w := (vshape ++ [paths])%list.
Hypothesis NE : ndindex w <> [].
Hypothesis HC : can (shp lam) w = true.
Definition cp_src : src (V := R) (G := G) (arr R) :=
  fun t dt => dbind (cpoisson_call (poisson_call poisson paths vshape (PArr lam)) rvs paths vshape t dt) (fun '(z, _, _) => dret z).

Definition cp_steps (t dt : R) : @draws G (arr R) :=
  let sg := nsign dt in
  dbind (poisson (amap (fun l => nmul (nabs dt) l) lam) w) (fun n =>
  dbind (dres (broadcast_to (amap (fun k => (sg * k)%Z) n) w)) (fun n1 =>
  dbind (dres (sub_arr (assembled 0%Z [] w [([], n1)]) [])) (fun ni =>
  let pos := amap (fun k => (sg * k)%Z) ni in
  dbind (dres (zmax (ravel pos))) (fun nmax =>
  dbind (each (fun j => jump_sample rvs w (t + dt/2) pos j) (seq 1 (Z.to_nat nmax))) (fun l =>
  dret (assembled nzero [] w [([], mkArr w (jumps_at (List.length (shp ni)) sg (the_samples l)))])))))).

Lemma pc_eq t dt g : poisson_call poisson paths vshape (PArr lam) (ascalar t) (ascalar dt) g =
  dbind (poisson (amap (fun l => nmul (nabs dt) l) lam) w) (fun n =>
  dbind (dres (broadcast_to (amap (fun k => (nsign dt * k)%Z) n) w)) (fun n1 => dret (assembled 0%Z [] w [([], n1)]))) g.
Proof.
  unfold poisson_call, broadcast2. change (bshape (shp (ascalar t)) (shp (ascalar dt))) with (Some (@nil nat)). unfold dbind, dres, dret. cbn [ndindex each shp dat param_call]. unfold dbind, dres, dret.
  change (bget (ascalar dt) []) with dt. fold w. destruct (poisson _ w g) as [[n|] g1]; [|reflexivity]. destruct (broadcast_to _ w) as [n1|]; reflexivity.
Qed.
Lemma cp_eq t dt g : cp_src (ascalar t) (ascalar dt) g = cp_steps t dt g.
Proof.
  unfold cp_src, cp_steps, cpoisson_call, broadcast2. change (bshape (shp (ascalar t)) (shp (ascalar dt))) with (Some (@nil nat)).
  change (bget (ascalar t)) with (fun _ : list nat => t). change (bget (ascalar dt)) with (fun _ : list nat => dt). change (mkArr (@nil nat) (fun _ => t)) with (ascalar t). change (mkArr (@nil nat) (fun _ => dt)) with (ascalar dt).
  unfold dbind, dres, dret. cbv beta iota.
  change {| shp := []; dat := fun _ : list nat => t |} with (ascalar t). change {| shp := []; dat := fun _ : list nat => dt |} with (ascalar dt).
  rewrite pc_eq. fold w. unfold dbind, dres, dret.
  destruct (poisson _ w g) as [[n|] g1]; [|reflexivity]. destruct (broadcast_to _ w) as [n1|]; [|reflexivity].
  change (ndindex (shp (ascalar dt))) with [@nil nat]. cbn [each]. unfold dbind, dres, dret. change (dat (ascalar dt) []) with dt. change (mid_time (ascalar t) (ascalar dt) []) with (t + dt/2).
  destruct (sub_arr _ _) as [ni|]; [|reflexivity]. destruct (zmax _) as [nm|]; [|reflexivity]. 
  destruct (each _ (seq 1 (Z.to_nat nm)) g1) as [[l|] g2]; reflexivity.
Qed.

(** the counts, as the source reads them *)
Definition read_counts (sg : Z) (n : arr Z) : arr Z :=
  let n2 := assembled 0%Z [] w [([], mkArr w (bget (amap (fun k => (sg * k)%Z) n)))] in
  amap (fun k => (sg * k)%Z) (mkArr (skipn 0 (shp n2)) (fun ix => dat n2 ([] ++ ix))).
Lemma read_shape sg n : shp (read_counts sg n) = w. Proof. reflexivity. Qed.
Lemma read_value sg n ix : shp n = w -> inb w ix -> dat (read_counts sg n) ix = (sg * (sg * dat n ix))%Z.
Proof.
  intros Sn I. unfold read_counts, assembled. cbn [amap dat app List.length firstn find fst skipn]. destruct (list_eq_dec Nat.eq_dec [] []); [|contradiction].
  rewrite bget_self by exact I. cbn [dat]. rewrite bget_self by (cbn [amap shp]; rewrite Sn; exact I). reflexivity.
Qed.
Variables (t dt : R).
Hypothesis Hdt : 0 < dt.
Hypothesis P_law : poisson_law L poisson (amap (fun l => dt * l) lam) w.
Lemma em_dj u D Psi z : (forall ix, Dm (u ix)) -> em D Psi z ->
  em (S (q * List.length (ndindex w) + D)) (step_of (at_step cp_src) w u t dt Psi)
     (cprod (fun ix => cexp (RtoC dt * jump_exponent (bget lam ix) J (u ix))%C) (ndindex w) * z)%C.
Proof.
  intros HU H.
  assert (S1 : nsign dt = 1%Z) by (unfold nsign; cbn [nlt Num_R nzero]; destruct (Rlt_dec 0 dt); [reflexivity|contradiction]).
  assert (A1 : nabs dt = dt) by (rewrite nabs_R; apply Rabs_pos_eq; lra).
  eapply em_ext.
  2: { apply (em_draw (poisson (amap (fun l => dt * l) lam) w) w _ _ P_law (q * List.length (ndindex w) + D)
        (fun n => after (dres (zmax (ravel (read_counts 1 n)))) (fun nm => after (each (fun j => jump_sample rvs w (t + dt/2) (read_counts 1 n) j) (seq 1 (Z.to_nat nm)))
           (fun l g' => (cexp (csum (fun ix => u ix * RtoC (total (jlist (the_samples l) ix)))%C (ndindex w)) * Psi g')%C)))
        (fun ix n => cpw (J (u ix)) (Z.to_nat n))).
       2: { intros ix I. replace (RtoC dt * jump_exponent (bget lam ix) J (u ix))%C with (RtoC (bget (amap (fun l => (dt * l)%R) lam) ix) * (J (u ix) - 1))%C; [apply poisson_exp|].
            unfold bget. cbn [amap shp dat]. unfold jump_exponent, bget. rewrite RtoC_mult. ring. }
       intros n Sn Hn.
       set (pos := read_counts 1 n).
       destruct (zmax (ravel pos)) as [nm|] eqn:EZ; [|exfalso; unfold ravel in EZ; change (shp pos) with w in EZ; destruct (ndindex w); [contradiction|discriminate EZ]].
       eapply em_le. 2: { eapply em_ext; [intro g; symmetry; apply after_dres|].
         replace (cprod (fun ix => cpw (J (u ix)) (Z.to_nat (dat n ix))) (ndindex w) * z)%C with
           (cprod (fun ix => if counted pos (seq 1 (Z.to_nat nm)) ix then cpw (J (u ix)) (Z.to_nat (dat pos ix)) else 1%C) (ndindex w) * z)%C.
         - exact (em_samples (t + dt/2) pos (seq 1 (Z.to_nat nm)) (seq_NoDup _ _) u D Psi z HU H).
         - f_equal. apply cprod_ext. intros ix I. assert (I' : inb w ix) by (apply in_ndindex; auto). assert (E : dat pos ix = dat n ix) by (unfold pos; rewrite read_value by auto; lia). specialize (Hn ix I').
           destruct (counted pos (seq 1 (Z.to_nat nm)) ix) eqn:X; [rewrite E; reflexivity|]. assert (dat n ix = 0)%Z; [|rewrite H0; reflexivity].
           assert (dat pos ix <= nm)%Z by (apply (zmax_ge _ _ EZ); unfold ravel; apply in_map; exact I).
           destruct (Z.eq_dec (dat n ix) 0); auto. exfalso. assert (Y : counted pos (seq 1 (Z.to_nat nm)) ix = true); [|congruence].
           unfold counted. apply existsb_exists. exists (Z.to_nat (dat pos ix)). split; [apply in_seq; lia|]. apply Z.eqb_eq. lia. }
       assert (K := need_le pos (seq 1 (Z.to_nat nm))). change (shp pos) with w in K. nia. }
  intro g. unfold step_of, at_step. rewrite cp_eq. unfold cp_steps. rewrite S1, A1. cbv zeta.
  match goal with |- _ = ?r => transitivity (after (fun g => (dbind (poisson (amap (fun l => dt * l) lam) w) (fun n => dbind (dres (zmax (ravel (read_counts 1 n)))) (fun nm => dbind (each (fun j => jump_sample rvs w (t + dt/2) (read_counts 1 n) j) (seq 1 (Z.to_nat nm))) (fun l => dret (assembled nzero [] w [([], mkArr w (jumps_at (List.length w) 1 (the_samples l)))]))))) g)
     (fun a g' => (cexp (csum (fun ix => u ix * RtoC (bget a ix))%C (ndindex w)) * Psi g')%C) g) end.
  - rewrite after_dbind. apply after_ext. intros n g' EN. rewrite after_dbind. apply after_ext. intros nm g2 _. rewrite after_dbind. apply after_ext. intros l g3 _. rewrite after_dret. f_equal. f_equal. apply csum_ext. intros ix I. apply in_ndindex in I.
    f_equal. f_equal. rewrite bget_self by exact I. unfold assembled. cbn [dat app List.length firstn find fst skipn]. destruct (list_eq_dec Nat.eq_dec [] []); [|contradiction]. rewrite bget_self by exact I. cbn [dat]. rewrite jumps_at_sum by (auto; rewrite (inb_length _ _ I); auto). ring.
  - unfold after, dbind, dres. destruct (poisson _ w g) as [[n|] g1] eqn:EN; [|reflexivity]. destruct (P_ok (amap (fun l => dt * l) lam) w g) as [_ K]. destruct (K n g1 EN) as [Sn _].
    unfold broadcast_to. cbn [amap shp]. rewrite Sn, can_refl. 
    assert (ES : forall a : arr Z, sub_arr a [] = Ok (mkArr (skipn 0 (shp a)) (fun ix => dat a ([] ++ ix)))) by (intro a; unfold sub_arr; destruct (shp a); reflexivity). rewrite ES.
    change (amap (fun k => (1 * k)%Z) (mkArr (skipn 0 (shp (assembled 0%Z [] w [([], mkArr w (bget (amap (fun k => (1 * k)%Z) n)))]))) (fun ix => dat (assembled 0%Z [] w [([], mkArr w (bget (amap (fun k => (1 * k)%Z) n)))]) ([] ++ ix)))) with (read_counts 1 n).
    destruct (zmax (ravel (read_counts 1 n))) as [nm|]; [|reflexivity].
    destruct (each _ _ g1) as [[l|] g2]; reflexivity.
Qed.
End Jumps.
End Progs.
