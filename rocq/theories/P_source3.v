(** Properties of compound Poisson sources: C31, and C26 for them. *)
From Coq Require Import List Arith Bool Lia ZArith Reals Lra Permutation.
From Verif Require Import Base BaseNum BaseArr BaseNd BaseIdx M_process M_source S_mc S_process S_source L_nd L_process L_process2 L_source P_source.
Import ListNotations.
Local Open Scope R_scope.

(** *** lists *)
Lemma flat_map_split {A B} (f h : A -> list B) l : Permutation (flat_map (fun x => f x ++ h x) l) (flat_map f l ++ flat_map h l).
Proof.
  induction l as [|x l IH]; simpl; [constructor|]. rewrite IH, <- !app_assoc. apply Permutation_app_head. rewrite !app_assoc. apply Permutation_app_tail. apply Permutation_app_comm.
Qed.
Lemma flat_map_ext_in {A B} (f h : A -> list B) l : (forall x, In x l -> f x = h x) -> flat_map f l = flat_map h l.
Proof. induction l as [|x l IH]; intro H; simpl; auto. rewrite (H x), IH; auto; [|left; auto]. intros y I. apply H. right. auto. Qed.
Lemma flat_map_nth {A B} (f : A -> list B) d l : flat_map f l = flat_map (fun k => f (nth k l d)) (seq 0 (List.length l)).
Proof.
  induction l as [|x l IH]; simpl; auto. f_equal. rewrite IH, <- seq_shift. rewrite !flat_map_concat_map, map_map. reflexivity.
Qed.
Lemma flat_map_filter {A B} (f : A -> list B) p l : (forall x, In x l -> p x = false -> f x = []) -> flat_map f l = flat_map f (filter p l).
Proof.
  induction l as [|x l IH]; intro H; simpl; auto. rewrite IH by (intros; apply H; auto; right; auto). destruct (p x) eqn:E; simpl; auto. rewrite (H x); simpl; auto.
Qed.
Lemma flat_map_flat_map {A B C} (f : B -> list C) (h : A -> list B) l : flat_map f (flat_map h l) = flat_map (fun x => flat_map f (h x)) l.
Proof. induction l as [|x l IH]; simpl; auto. rewrite flat_map_app, IH. reflexivity. Qed.
Lemma perm_flat_map {A B} (f h : A -> list B) l : (forall x, In x l -> Permutation (f x) (h x)) -> Permutation (flat_map f l) (flat_map h l).
Proof. induction l as [|x l IH]; intro H; simpl; [constructor|]. apply Permutation_app; [apply H; left; auto|apply IH; intros; apply H; right; auto]. Qed.

(** *** positions *)
Definition pos_from (ix : list nat) := fix go k (l : list (list nat)) := match l with [] => None | x :: l' => if list_eq_dec Nat.eq_dec x ix then Some k else go (S k) l' end.
Lemma pos_from_none ix l : forall k, pos_from ix k l = None <-> ~ In ix l.
Proof.
  induction l as [|x l IH]; intro k; cbn [pos_from]; [split; auto|]. destruct (list_eq_dec Nat.eq_dec x ix) as [->|N]; split; intro H.
  - discriminate.
  - destruct H. left. auto.
  - apply IH in H. intros [E|I]; auto.
  - apply IH. intro I. apply H. right. auto.
Qed.
Lemma pos_from_some ix l : forall k m, pos_from ix k l = Some m -> (k <= m)%nat /\ (m - k < List.length l)%nat /\ nth (m - k) l [] = ix.
Proof.
  induction l as [|x l IH]; intros k m; cbn [pos_from]; [discriminate|]. destruct (list_eq_dec Nat.eq_dec x ix) as [->|N]; intro H.
  - injection H as <-. rewrite Nat.sub_diag. simpl. repeat split; lia.
  - apply IH in H. destruct H as (H1 & H2 & H3). simpl. destruct (m - k)%nat eqn:E; [lia|]. replace (m - S k)%nat with n in * by lia. repeat split; auto; lia.
Qed.
Lemma position_none ix l : position ix l = None <-> ~ In ix l.
Proof. apply (pos_from_none ix l 0). Qed.
Lemma position_some ix l m : position ix l = Some m -> (m < List.length l)%nat /\ nth m l [] = ix.
Proof. intro H. apply (pos_from_some ix l 0) in H. rewrite Nat.sub_0_r in H. tauto. Qed.
Lemma position_nth l k : NoDup l -> (k < List.length l)%nat -> position (nth k l []) l = Some k.
Proof.
  intros N K. destruct (position (nth k l []) l) as [m|] eqn:E.
  - apply position_some in E. destruct E as [E1 E2]. f_equal. apply (proj1 (NoDup_nth l []) N); auto.
  - apply position_none in E. destruct E. apply nth_In; auto.
Qed.

(** the jumps at an entry *)
Fixpoint jlist (l : list (list (list nat) * arr R)) (ix : list nat) : list R :=
  match l with
  | [] => []
  | (e, y) :: l' => match position ix e with Some k => row y [k] | None => jlist l' ix end
  end.
Lemma zmul_R s x : (s = 1 \/ s = -1 \/ s = 0)%Z -> zmul s x = IZR s * x.
Proof. unfold zmul. intros [->|[->| ->]]; cbn [Z.eqb Pos.eqb]; simpl; ring. Qed.
Lemma bget_pos {B} n (f : list nat -> B) k : (k < n)%nat -> bget (mkArr [n] f) [k] = f [k].
Proof. intro L. apply bget_self. constructor; [exact L|constructor]. Qed.
Lemma jumps_at_sum m sign l ix : (List.length ix <= m)%nat -> (sign = 1 \/ sign = -1 \/ sign = 0)%Z -> jumps_at m sign l ix = IZR sign * total (jlist l ix).
Proof.
  intros L S. induction l as [|[e y] l IH]; cbn [jumps_at jlist]; [simpl; ring|]. rewrite (firstn_all2 ix L). destruct (position ix e) as [k|] eqn:P; auto.
  apply position_some in P. destruct P as [P _]. rewrite (skipn_all2 ix L). refine (eq_trans (bget_pos _ _ _ P) _). rewrite zmul_R by auto. rewrite nsum_R. reflexivity.
Qed.
(** a mask of the shape of the array always fits *)
Lemma masked_self s k : masked s s k = Ok tt.
Proof. unfold masked. rewrite firstn_all, skipn_all. destruct (list_eq_dec Nat.eq_dec s s); [|contradiction]. rewrite can_refl. reflexivity. Qed.
Lemma ravel_rows (y : arr R) m j : shp y = [m; j] -> ravel y = flat_map (fun k => row y [k]) (seq 0 m).
Proof.
  intro S. unfold ravel, row. rewrite S. cbn [last]. change (ndindex [m; j]) with (flat_map (fun i => map (cons i) (ndindex [j])) (seq 0 m)). rewrite ndindex_1. rewrite !flat_map_concat_map, concat_map, map_map. f_equal. apply map_ext. intro i. rewrite !map_map. reflexivity.
Qed.

Section C31.
Context {G : Type} (rvs : R -> nat -> nat -> G -> res (arr R) * G).
Hypothesis RVS : rvs_ok rvs.

(** the samples drawn at a time *)
Lemma samples_at s tm (pos : arr Z) js g l g' : NoDup js -> threaded (fun j => jump_sample rvs s tm pos j) js g l g' ->
  let L := the_samples l in
  (forall r, inb (shp pos) r -> List.length (jlist L r) = if existsb (fun j => (dat pos r =? Z.of_nat j)%Z) js then Z.to_nat (dat pos r) else 0%nat) /\
  (forall r, inb (shp pos) r -> jlist L r <> [] -> exists m g1 y g2 k, rvs tm m (List.length (jlist L r)) g1 = (Ok y, g2) /\ (k < m)%nat /\ jlist L r = row y [k]) /\
  Permutation (flat_map ravel (map snd L)) (flat_map (jlist L) (ndindex (shp pos))).
Proof using RVS.
  intros ND T. cbv zeta. induction T as [g|j js g b g1 l g2 E T IH].
  - cbn [the_samples flat_map map jlist]. repeat split.
    + intros r I N. contradiction.
    + induction (ndindex (shp pos)); simpl; auto.
  - inversion ND as [|? ? NI ND']; subst. specialize (IH ND'). destruct IH as (I1 & I2 & I3). unfold jump_sample in E. set (e := filter (fun ix => (dat pos ix =? Z.of_nat j)%Z) (ndindex (shp pos))) in *.
    assert (EI : forall r, In r e <-> inb (shp pos) r /\ dat pos r = Z.of_nat j) by (intro r; unfold e; rewrite filter_In, in_ndindex, Z.eqb_eq; tauto).
    assert (EJ : forall r, inb (shp pos) r -> dat pos r = Z.of_nat j -> jlist (the_samples l) r = []).
    { intros r I D. specialize (I1 r I). destruct (existsb _ js) eqn:X.
      - apply existsb_exists in X. destruct X as (k & K1 & K2). apply Z.eqb_eq in K2. assert (k = j) by lia. subst k. contradiction.
      - destruct (jlist (the_samples l) r); auto. discriminate. }
    assert (NE : NoDup e) by (apply NoDup_filter, NoDup_ndindex).
    assert (FE : forall f : list nat -> list R, (forall r, ~ In r e -> f r = []) -> flat_map f (ndindex (shp pos)) = flat_map f e).
    { intros f F. apply flat_map_filter. intros r I D. apply F. intro J. apply EI in J. destruct J as [_ J]. apply Z.eqb_eq in J. congruence. }
    clearbody e. destruct e as [|e0 e'] eqn:EE.
    + apply dret_ok in E. destruct E as [-> ->]. cbn [the_samples flat_map snd app]. fold (the_samples l). split; [|split; auto]. intros r I. rewrite (I1 r I). cbn [existsb]. destruct (Z.eqb_spec (dat pos r) (Z.of_nat j)) as [D|D]; auto. exfalso. apply (proj2 (EI r)). auto.
    + rewrite <- EE in *. clear EE e0 e'. apply dbind_ok in E. destruct E as (y & g3 & Y & E). apply dbind_ok in E. destruct E as ([] & g4 & E4 & E). apply dres_ok in E4. destruct E4 as [_ ->]. apply dret_ok in E. destruct E as [-> ->]. cbn [the_samples flat_map snd app]. fold (the_samples l). pose proof (RVS _ _ _ _ _ _ Y) as SY.
      assert (RL : forall k, List.length (row y [k]) = j) by (intro k; unfold row; rewrite map_length, seq_length, SY; reflexivity).
      cbn [jlist map flat_map snd]. split; [|split].
      * intros r I. cbn [existsb]. destruct (position r e) as [k|] eqn:P.
        -- apply position_some in P. destruct P as [P1 P2]. assert (R1 : In r e) by (rewrite <- P2; apply nth_In; auto). apply EI in R1. destruct R1 as [_ D]. rewrite RL, D, Z.eqb_refl. cbn [orb]. lia.
        -- apply position_none in P. rewrite (I1 r I). destruct (Z.eqb_spec (dat pos r) (Z.of_nat j)) as [D|D]; auto. exfalso. apply P, EI. auto.
      * intros r I. destruct (position r e) as [k|] eqn:P; [|apply I2; auto]. intros _. rewrite RL. apply position_some in P. exists (List.length e), g, y, g3, k. tauto.
      * set (A := fun r => match position r e with Some k => row y [k] | None => [] end).
        rewrite (flat_map_ext_in _ (fun r => A r ++ jlist (the_samples l) r)).
        -- rewrite flat_map_split. apply Permutation_app; [|exact I3]. rewrite (FE A).
           ++ rewrite (ravel_rows y _ _ SY), (flat_map_nth A []). erewrite flat_map_ext_in; [apply Permutation_refl|]. intros k K. apply in_seq in K. unfold A. rewrite position_nth; auto. lia.
           ++ intros r N. unfold A. apply position_none in N. rewrite N. reflexivity.
        -- intros r I. unfold A. destruct (position r e) as [k|] eqn:P; [|reflexivity]. apply in_ndindex in I. apply position_some in P. destruct P as [P1 P2]. assert (R1 : In r e) by (rewrite <- P2; apply nth_In; auto). apply EI in R1. rewrite EJ by tauto. rewrite app_nil_r. reflexivity.
Qed.

Lemma zmax_ge l : forall m, zmax l = Ok m -> forall x, In x l -> (x <= m)%Z.
Proof.
  destruct l as [|a l]; intros m H; [discriminate|]. injection H as <-. assert (K : forall b, (b <= fold_left Z.max l b)%Z /\ forall x, In x l -> (x <= fold_left Z.max l b)%Z).
  { induction l as [|c l IH]; intro b; cbn [fold_left]; [split; [lia|intros x []]|]. destruct (IH (Z.max b c)) as [I1 I2]. split; [lia|]. intros x [->|I]; auto. lia. }
  intros x [->|I]; [apply (proj1 (K x))|apply (proj2 (K a)); auto].
Qed.
Lemma nsign_cases x : (nsign (V := R) x = 1 \/ nsign (V := R) x = -1 \/ nsign (V := R) x = 0)%Z.
Proof. unfold nsign. destruct (nlt nzero x); auto. destruct (nlt x nzero); auto. Qed.

(** each entry is the sum of as many jumps as counted, with the sign of dt; a jump is never used twice, and y_value is all
    of them; jumps are drawn from the distribution at the middle of the interval *)
Theorem C31_jumps dn paths vshape t dt w g dz n ys g' : bshape (shp t) (shp dt) = Some w -> cpoisson_call dn rvs paths vshape t dt g = (Ok (dz, n, ys), g') ->
  let s := vshape ++ [paths] in
  (exists g1, dn (mkArr w (bget t)) (mkArr w (bget dt)) g = (Ok n, g1)) /\
  (shp n = w ++ s -> shp dz = w ++ s /\ exists jumps : list nat -> list nat -> list R,
    (forall ix r, inb w ix -> inb s r ->
      dat dz (ix ++ r) = IZR (nsign (bget dt ix)) * total (jumps ix r) /\
      List.length (jumps ix r) = Z.to_nat (nsign (bget dt ix) * dat n (ix ++ r)) /\
      (jumps ix r <> [] -> exists m g1 y g2 k, rvs (middle t dt ix) m (List.length (jumps ix r)) g1 = (Ok y, g2) /\ (k < m)%nat /\ jumps ix r = row y [k])) /\
    Permutation (flat_map ravel ys) (flat_map (fun ix => flat_map (jumps ix) (ndindex s)) (ndindex w))).
Proof using RVS.
  intros B C. cbv zeta. unfold cpoisson_call in C. apply dbind_ok in C. destruct C as ([t' dt'] & g0 & E0 & C). apply dres_ok in E0. destruct E0 as [E0 ->]. unfold broadcast2 in E0. rewrite B in E0. injection E0 as <- <-. cbn [shp dat] in C.
  apply dbind_ok in C. destruct C as (n' & g1 & DN & C). apply dbind_ok in C. destruct C as (l & g2 & T & C). apply dret_ok in C. destruct C as [C _]. injection C as -> -> ->. split; [eauto|]. intro SN.
  split; [reflexivity|]. apply each_threaded in T. pose proof (threaded_fst _ _ _ _ _ T) as FT. set (s := vshape ++ [paths]) in *.
  assert (K : exists jumps : list nat -> list nat -> list R,
    (forall ix z y, In (ix, (z, y)) l -> shp z = s /\ forall r, inb s r ->
      dat z r = IZR (nsign (bget dt ix)) * total (jumps ix r) /\
      List.length (jumps ix r) = Z.to_nat (nsign (bget dt ix) * dat n' (ix ++ r)) /\
      (jumps ix r <> [] -> exists m g1 y g2 k, rvs (middle t dt ix) m (List.length (jumps ix r)) g1 = (Ok y, g2) /\ (k < m)%nat /\ jumps ix r = row y [k])) /\
    Permutation (flat_map ravel (flat_map (fun p => snd (snd p)) l)) (flat_map (fun ix => flat_map (jumps ix) (ndindex s)) (ndindex w))).
  { assert (IW : forall ix, In ix (ndindex w) -> inb w ix) by (intros; apply in_ndindex; auto). revert IW. clear FT DN. pose proof (NoDup_ndindex w) as ND. revert ND. induction T as [g3|i il g3 b g4 l g5 E T IH]; intros ND IW.
    - exists (fun _ _ => []). split; [intros ix z y []|constructor].
    - inversion ND as [|? ? NI ND']; subst. destruct (IH ND' (fun ix I => IW ix (or_intror I))) as (jumps & J1 & J2). clear IH. assert (I0 := IW i (or_introl eq_refl)).
      apply dbind_ok in E. destruct E as (ni & g6 & E6 & E). apply dres_ok in E6. destruct E6 as [E6 ->]. rewrite (sub_arr_prefix n' w s i SN I0) in E6. injection E6 as <-.
      apply dbind_ok in E. destruct E as (nm & g7 & E7 & E). apply dres_ok in E7. destruct E7 as [E7 ->]. apply dbind_ok in E. destruct E as (sl & g8 & E8 & E). apply dret_ok in E. destruct E as [-> ->]. apply each_threaded in E8.
      apply samples_at in E8; [|apply seq_NoDup]. cbv zeta in E8. cbn [amap shp dat] in *. destruct E8 as (A1 & A2 & A3).
      exists (fun ix => if list_eq_dec Nat.eq_dec ix i then jlist (the_samples sl) else jumps ix). split.
      + intros ix z y [Q|Q].
        * injection Q as -> <- <-. split; [reflexivity|]. destruct (list_eq_dec Nat.eq_dec ix ix) as [_|]; [|contradiction]. intros r I. cbn [dat]. rewrite jumps_at_sum by (apply nsign_cases || (rewrite (inb_length _ _ I); reflexivity)). split; [reflexivity|]. split; [|apply A2; auto].
          rewrite (A1 r I). destruct (existsb _ _) eqn:X; auto. set (p := (nsign (bget dt ix) * dat n' (ix ++ r))%Z) in *.
          assert (p <= nm)%Z. { apply (zmax_ge _ _ E7). unfold ravel. apply in_map_iff. exists r. cbn [amap shp dat]. split; [reflexivity|]. apply in_ndindex; auto. }
          destruct (Z_le_gt_dec p 0); [lia|]. exfalso. assert (Y : existsb (fun j => (p =? Z.of_nat j)%Z) (seq 1 (Z.to_nat nm)) = true); [|congruence]. apply existsb_exists. exists (Z.to_nat p). rewrite in_seq. split; [lia|]. apply Z.eqb_eq. lia.
        * destruct (list_eq_dec Nat.eq_dec ix i) as [->|_]; [|apply (J1 _ _ _ Q)]. exfalso. apply NI. apply threaded_fst in T. rewrite <- T. apply in_map_iff. exists (i, (z, y)). auto.
      + cbn [flat_map snd]. rewrite flat_map_app. destruct (list_eq_dec Nat.eq_dec i i); [|contradiction]. apply Permutation_app; [exact A3|]. etransitivity; [exact J2|]. apply perm_flat_map. intros x I. cbv beta. destruct (list_eq_dec Nat.eq_dec x i) as [->|]; [contradiction|apply Permutation_refl]. }
  destruct K as (jumps & J1 & J2). exists jumps. split; [|exact J2]. intros ix r I1 I2.
  destruct (assembled_entry 0 w s (map (fun p => (fst p, fst (snd p))) l) ix r) as (a & A1 & A2); [rewrite map_map; exact FT|auto|]. rewrite A2. apply in_map_iff in A1. destruct A1 as ([i [z y]] & A1 & A3). cbn [fst snd] in A1. injection A1 as -> ->.
  destruct (J1 _ _ _ A3) as [S1 K1]. rewrite bget_self by (rewrite S1; auto). apply K1; auto.
Qed.
(** no jumps, no change *)
Theorem C31_none dn paths vshape t dt w g dz n ys g' ix r : bshape (shp t) (shp dt) = Some w -> cpoisson_call dn rvs paths vshape t dt g = (Ok (dz, n, ys), g') ->
  shp n = w ++ vshape ++ [paths] -> inb w ix -> inb (vshape ++ [paths]) r -> dat n (ix ++ r) = 0%Z -> dat dz (ix ++ r) = 0.
Proof using RVS.
  intros B C SN I1 I2 Z. destruct (C31_jumps _ _ _ _ _ _ _ _ _ _ _ B C) as [_ H]. destruct (H SN) as (_ & jumps & J & _). destruct (J ix r I1 I2) as (J1 & J2 & _). rewrite Z, Z.mul_0_r in J2. destruct (jumps ix r); [|discriminate]. rewrite J1. simpl. ring.
Qed.
(** counts with the sign of dt: |dn| jumps *)
Theorem C31_number dn paths vshape t dt w g dz n ys g' : bshape (shp t) (shp dt) = Some w -> cpoisson_call dn rvs paths vshape t dt g = (Ok (dz, n, ys), g') ->
  let s := vshape ++ [paths] in shp n = w ++ s -> (forall ix r, inb w ix -> inb s r -> dat n (ix ++ r) = (nsign (bget dt ix) * Z.abs (dat n (ix ++ r)))%Z) ->
  exists jumps : list nat -> list nat -> list R,
    (forall ix r, inb w ix -> inb s r -> List.length (jumps ix r) = Z.abs_nat (dat n (ix ++ r)) /\ dat dz (ix ++ r) = IZR (Z.sgn (dat n (ix ++ r))) * total (jumps ix r)) /\
    Permutation (flat_map ravel ys) (flat_map (fun ix => flat_map (jumps ix) (ndindex s)) (ndindex w)).
Proof using RVS.
  intros B C s SN SG. destruct (C31_jumps _ _ _ _ _ _ _ _ _ _ _ B C) as [_ H]. destruct (H SN) as (_ & jumps & J & P). exists jumps. split; [|exact P]. intros ix r I1 I2. destruct (J ix r I1 I2) as (J1 & J2 & _). specialize (SG ix r I1 I2). set (k := dat n (ix ++ r)) in *.
  assert (L : List.length (jumps ix r) = Z.abs_nat k). { rewrite J2. destruct (nsign_cases (bget dt ix)) as [X|[X|X]]; rewrite X in *; lia. }
  split; [exact L|]. rewrite J1. destruct (jumps ix r) as [|a q]; [simpl; ring|]. f_equal. f_equal. destruct (nsign_cases (bget dt ix)) as [X|[X|X]]; rewrite X in *; simpl in L; try lia.
Qed.
(** C26 for compound Poisson sources *)
Theorem C26_cpoisson dn paths vshape t dt w g dz n ys g' : bshape (shp t) (shp dt) = Some w -> cpoisson_call dn rvs paths vshape t dt g = (Ok (dz, n, ys), g') -> shp n = w ++ vshape ++ [paths] ->
  shp dz = w ++ vshape ++ [paths] /\ forall ix r, inb w ix -> inb (vshape ++ [paths]) r -> bget dt ix = 0 -> dat dz (ix ++ r) = 0.
Proof using RVS.
  intros B C SN. destruct (C31_jumps _ _ _ _ _ _ _ _ _ _ _ B C) as [_ H]. destruct (H SN) as (SH & jumps & J & _). split; [exact SH|]. intros ix r I1 I2 Z. destruct (J ix r I1 I2) as (J1 & _). rewrite J1, Z, nsign_R. destruct (Rlt_dec 0 0); [lra|]. ring.
Qed.
(** counts can be found for entries of positive number, and variates of the promised shape: then the source succeeds *)
Theorem C31_succeeds dn paths vshape t dt w g : bshape (shp t) (shp dt) = Some w -> (forall tm m j g, exists y g', rvs tm m j g = (Ok y, g')) ->
  (exists n g1, dn (mkArr w (bget t)) (mkArr w (bget dt)) g = (Ok n, g1) /\ shp n = w ++ vshape ++ [paths]) -> ndindex (vshape ++ [paths]) <> [] ->
  exists dz n ys g', cpoisson_call dn rvs paths vshape t dt g = (Ok (dz, n, ys), g').
Proof using.
  intros B RT (n & g1 & DN & SN) NE. set (s := vshape ++ [paths]) in *.
  assert (T : exists l g2, each (fun i => let sign := nsign (bget dt i) in
           dbind (dres (sub_arr n i)) (fun ni =>
           let pos := amap (fun k => (sign * k)%Z) ni in
           dbind (dres (zmax (ravel pos))) (fun nmax =>
           dbind (each (fun j => jump_sample rvs s (mid_time (mkArr w (bget t)) (mkArr w (bget dt)) i) pos j) (seq 1 (Z.to_nat nmax))) (fun l =>
           dret (mkArr s (jumps_at (List.length (shp ni)) sign (the_samples l)), map snd (the_samples l)))))) (ndindex w) g1 = (Ok l, g2)).
  { destruct (threaded_total (fun i => let sign := nsign (bget dt i) in
           dbind (dres (sub_arr n i)) (fun ni =>
           let pos := amap (fun k => (sign * k)%Z) ni in
           dbind (dres (zmax (ravel pos))) (fun nmax =>
           dbind (each (fun j => jump_sample rvs s (mid_time (mkArr w (bget t)) (mkArr w (bget dt)) i) pos j) (seq 1 (Z.to_nat nmax))) (fun l =>
           dret (mkArr s (jumps_at (List.length (shp ni)) sign (the_samples l)), map snd (the_samples l)))))) (ndindex w)) with (g := g1) as (l & g2 & T); [|exists l, g2; apply each_threaded; exact T].
    intros i g3 I. apply in_ndindex in I. cbv zeta. rewrite (sub_arr_prefix n w s i SN I). unfold dbind at 1. unfold dres at 1.
    assert (Z1 : exists m, zmax (ravel (amap (fun k => (nsign (bget dt i) * k)%Z) (mkArr s (fun jx => dat n (i ++ jx))))) = Ok m).
    { unfold ravel. cbn [amap shp]. destruct (ndindex s); [contradiction|]. cbn [map zmax]. eauto. }
    destruct Z1 as [m Z1]. rewrite Z1. unfold dbind at 1. unfold dres at 1.
    destruct (threaded_total (fun j => jump_sample rvs s (mid_time (mkArr w (bget t)) (mkArr w (bget dt)) i) (amap (fun k => (nsign (bget dt i) * k)%Z) (mkArr s (fun jx => dat n (i ++ jx)))) j) (seq 1 (Z.to_nat m))) with (g := g3) as (sl & g4 & T).
    - intros j g4 _. unfold jump_sample. destruct (filter _ _) as [|e0 e]; [exists None, g4; reflexivity|]. destruct (RT (mid_time (mkArr w (bget t)) (mkArr w (bget dt)) i) (List.length (e0 :: e)) j g4) as (y & g5 & Y). exists (Some (e0 :: e, y)), g5. unfold dbind. rewrite Y. cbn [amap shp]. rewrite masked_self. reflexivity.
    - apply each_threaded in T. unfold dbind. rewrite T. unfold dret. eauto. }
  destruct T as (l & g2 & T). do 4 eexists. unfold cpoisson_call. apply dbind_ok. exists (mkArr w (bget t), mkArr w (bget dt)), g. split; [apply dres_ok; unfold broadcast2; rewrite B; auto|].
  apply dbind_ok. exists n, g1. split; [exact DN|]. apply dbind_ok. exists l, g2. split; [exact T|reflexivity].
Qed.
End C31.

(** variates g, g + 1, ... and counts 2, 0, 1 forward, -1, -2, 0 backward *)
Definition ex_rvs (t : R) (m j : nat) (g : nat) : res (arr R) * nat := (Ok (mkArr [m; j] (fun ix => INR (g + nth 0 ix 0 * j + nth 1 ix 0)%nat)), (g + m*j)%nat).
Definition ex_dn (t dt : arr R) (g : nat) : res (arr Z) * nat := (Ok (mkArr [2; 3]%nat (fun ix => nth (nth 1 ix 0%nat) (nth (nth 0 ix 0%nat) [[2; 0; 1]; [-1; -2; 0]]%Z []) 0%Z)), g).
Example C31_ex : exists dz n ys g', cpoisson_call ex_dn ex_rvs 3 [] (vec [0; 1]) (vec [1; -1]) 5%nat = (Ok (dz, n, ys), g') /\ map (dat n) (ndindex [2; 3]%nat) = [2; 0; 1; -1; -2; 0]%Z /\
  exists jumps : list nat -> list nat -> list R,
    (forall ix r, inb [2]%nat ix -> inb [3]%nat r -> List.length (jumps ix r) = Z.abs_nat (dat n (ix ++ r)) /\ dat dz (ix ++ r) = IZR (Z.sgn (dat n (ix ++ r))) * total (jumps ix r)) /\
    dat dz [0; 1]%nat = 0 /\ dat dz [1; 2]%nat = 0 /\
    exists a b, jumps [1]%nat [1]%nat = [a; b] /\ dat dz [1; 1]%nat = -(a + b).
Proof.
  assert (RV : rvs_ok ex_rvs) by (intros t m j g y g' E; injection E as <- _; reflexivity).
  destruct (C31_succeeds ex_rvs ex_dn 3 [] (vec [0; 1]) (vec [1; -1]) [2]%nat 5%nat) as (dz & n & ys & g' & E).
  - reflexivity.
  - intros. unfold ex_rvs. eauto.
  - unfold ex_dn. do 2 eexists. split; reflexivity.
  - discriminate.
  - destruct (C31_jumps ex_rvs RV ex_dn 3 [] (vec [0; 1]) (vec [1; -1]) [2]%nat _ _ _ _ _ eq_refl E) as [[g1 N] _]. injection N as N _. exists dz, n, ys, g'. split; [exact E|]. split; [rewrite <- N; reflexivity|].
    assert (SG : forall ix r, inb [2]%nat ix -> inb [3]%nat r -> dat n (ix ++ r) = (nsign (bget (vec [1; -1]%R) ix) * Z.abs (dat n (ix ++ r)))%Z).
    { intros ix r I1 I2. rewrite <- N. inversion I1 as [|i ? ix' ? L1 J1]; subst. inversion J1; subst. inversion I2 as [|k ? r' ? L2 J2]; subst. inversion J2; subst.
      rewrite nsign_R. unfold bget.
      destruct i as [|[|i]]; [..|lia]; destruct k as [|[|[|k]]]; try lia; cbn; repeat match goal with |- context [Rlt_dec ?a ?b] => destruct (Rlt_dec a b); try lra end; reflexivity. }
    destruct (C31_number ex_rvs RV ex_dn 3 [] (vec [0; 1]) (vec [1; -1]) [2]%nat _ _ _ _ _ eq_refl E) as (jumps & J & _); [rewrite <- N; reflexivity|exact SG|]. exists jumps. split; [exact J|].
    assert (B : forall i k, (i < 2)%nat -> (k < 3)%nat -> inb [2]%nat [i] /\ inb [3]%nat [k]) by (intros; split; (constructor; [assumption|constructor])).
    split; [|split].
    + apply (C31_none ex_rvs RV ex_dn 3 [] (vec [0; 1]) (vec [1; -1]) [2]%nat _ _ _ _ _ [0]%nat [1]%nat eq_refl E); [rewrite <- N; reflexivity|apply (B 0 0)%nat; lia|apply (B 0 1)%nat; lia|rewrite <- N; reflexivity].
    + apply (C31_none ex_rvs RV ex_dn 3 [] (vec [0; 1]) (vec [1; -1]) [2]%nat _ _ _ _ _ [1]%nat [2]%nat eq_refl E); [rewrite <- N; reflexivity|apply (B 1 0)%nat; lia|apply (B 0 2)%nat; lia|rewrite <- N; reflexivity].
    + destruct (J [1]%nat [1]%nat) as [J1 J2]; [apply (B 1 0)%nat; lia|apply (B 0 1)%nat; lia|]. rewrite <- N in J1, J2. cbn [app] in *. destruct (jumps [1]%nat [1]%nat) as [|a [|b [|c q]]]; try discriminate J1. exists a, b. split; [reflexivity|]. rewrite J2. cbn. ring.
Qed.
Print Assumptions C31_jumps.
Print Assumptions C31_none.
Print Assumptions C31_number.
Print Assumptions C26_cpoisson.
Print Assumptions C31_succeeds.
