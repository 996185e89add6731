(** Lemmas on the montecarlo class: samples and moments. *)
From Coq Require Import String List Arith Bool Lia ZArith Reals Lra.
From Verif Require Import Base BaseNum BaseArr BaseNd M_mc S_mc L_nd.
Import ListNotations.
Local Open Scope R_scope.

(** *** samples *)
Lemma moveaxis_batch {V} v n (x : arr V * Z) : batch v n x ->
  exists y, moveaxis_last (if Nat.eqb (List.length (shp (fst x))) 0 then mkArr [1%nat] (fun _ => dat (fst x) []) else fst x) (snd x) = Ok y /\
    shp y = (v ++ [n])%list /\ forall ix, inb v ix -> row y ix = values x ix.
Proof.
  intros (k & A & B). destruct x as [a ax]. unfold axis_of, values, axis_of in *. simpl in *. destruct (shp a) as [|d s] eqn:S.
  - destruct B as [-> ->]. unfold moveaxis_last. simpl. rewrite A. pose proof (norm_index_lt _ _ _ A). assert (k = 0%nat) as -> by lia.
    eexists. split; [reflexivity|]. split; [reflexivity|]. intros ix _. reflexivity.
  - destruct B as [<- <-]. cbn [List.length Nat.eqb]. unfold moveaxis_last. rewrite S.
    change (List.length (d :: s)) with (Datatypes.S (List.length s)). rewrite A. eexists. split; [reflexivity|]. split; [reflexivity|].
    intros ix Hix. unfold row. cbn [shp dat]. rewrite last_snoc. apply map_ext_in. intros j Hj. rewrite last_snoc, removelast_snoc. reflexivity.
Qed.

Lemma values_length {V} v n (x : arr V * Z) ix : batch v n x -> List.length (values x ix) = n.
Proof.
  intros (k & A & B). unfold values. destruct x as [a ax]. simpl in *. rewrite A. destruct (shp a).
  - destruct B as [_ ->]. reflexivity.
  - destruct B as [_ <-]. rewrite map_length, seq_length. reflexivity.
Qed.
Lemma halves_length sg l : List.length (halves sg l) = Nat.div (List.length l) 2.
Proof. unfold halves. rewrite map_length, seq_length. reflexivity. Qed.

Lemma nth_map_seq (f : nat -> R) n j : (j < n)%nat -> nth j (map f (seq 0 n)) 0 = f j.
Proof. intro H. rewrite nth_indep with (d' := f 0%nat) by (rewrite map_length, seq_length; auto). rewrite map_nth, seq_nth; auto. Qed.

Lemma mc_sample_ok use v x : sample_ok use v x ->
  exists y m, mc_sample use (fst x) (snd x) = Ok y /\ shp y = (v ++ [m])%list /\ (0 < m)%nat /\
    forall ix, inb v ix -> row y ix = seen use (values x ix) /\ List.length (seen use (values x ix)) = m.
Proof.
  intros (n & B & P & U). destruct (moveaxis_batch v n x B) as (y & E & S & HR). unfold mc_sample. rewrite E. unfold rbind.
  destruct U as [->|[U EV]].
  - exists y, n. simpl. split; [reflexivity|]. split; [exact S|]. split; [exact P|]. intros ix Hix. unfold seen. simpl. rewrite <- HR by auto. split; auto.
    rewrite HR by auto. apply (values_length v); auto.
  - apply Nat.even_spec in EV. destruct EV as [h ->].
    assert (EM : ((2*h) mod 2 = 0)%nat) by (rewrite Nat.mul_comm; apply Nat.mod_mul; lia).
    assert (ED : (2*h/2 = h)%nat) by (rewrite Nat.mul_comm; apply Nat.div_mul; lia).
    rewrite S, last_snoc, removelast_snoc, ED, EM.
    assert (G : forall sg (g : R -> R), (forall z, g z = sg * z) -> forall ix, inb v ix ->
        row (mkArr (v ++ [h]) (fun ix => (dat y (removelast ix ++ [last ix 0%nat])%list + g (dat y (removelast ix ++ [(h + last ix 0)%nat])%list)) / 2)) ix
        = halves sg (values x ix)).
    { intros sg g Hg ix Hix. rewrite <- HR by auto. unfold halves. rewrite row_length, S, last_snoc, ED. unfold row. cbn [shp dat]. rewrite S, !last_snoc.
      apply map_ext_in. intros j Hj. apply in_seq in Hj. rewrite last_snoc, removelast_snoc, Hg.
      rewrite !(nth_map_seq (fun j => dat y (ix ++ [j])%list)) by lia. reflexivity. }
    destruct U as [->| ->]; simpl String.eqb; cbn [orb Nat.eqb]; eexists _, h; (split; [reflexivity|]); (split; [reflexivity|]); (split; [lia|]);
      intros ix Hix; unfold seen; simpl String.eqb; cbv iota; rewrite halves_length, (values_length v (2*h)) by auto; (split; [|exact ED]).
    + rewrite <- (G 1 (fun z => z)) by (auto; intro; ring). reflexivity.
    + rewrite <- (G (-1) (fun z => (0 - 1) * z)) by (auto; intro; ring). reflexivity.
Qed.
Lemma mc_sample_odd use v n (x : arr R * Z) : batch v n x -> (use = "even" \/ use = "odd")%string -> Nat.even n = false -> mc_sample use (fst x) (snd x) = Err ValueError.
Proof.
  intros B U EV. destruct (moveaxis_batch v n x B) as (y & E & S & HR). unfold mc_sample. rewrite E. unfold rbind. rewrite S, last_snoc.
  assert (EM : Nat.eqb (n mod 2) 0 = false).
  { apply Nat.eqb_neq. intro Z. apply Nat.mod_divides in Z; [|lia]. destruct Z as [k ->]. rewrite Nat.even_mul in EV. discriminate. }
  rewrite EM. destruct U as [->| ->]; reflexivity.
Qed.

(** *** moments *)
Lemma total_app l1 l2 : total (l1 ++ l2) = total l1 + total l2.
Proof. induction l1; simpl; [lra|]. rewrite IHl1. lra. Qed.
Lemma nmean_average l : nmean (V := R) l = average l.
Proof. unfold nmean, average. rewrite nsum_R. reflexivity. Qed.
Lemma average_app l1 l2 : (0 < List.length l2)%nat ->
  average (l1 ++ l2) = (INR (List.length l1) * average l1 + INR (List.length l2) * average l2) / INR (List.length l1 + List.length l2).
Proof.
  intro H. unfold average. rewrite app_length, total_app. assert (0 < INR (List.length l2)) by (apply lt_0_INR; auto).
  destruct l1 as [|x l1].
  - simpl List.length. rewrite Nat.add_0_l. simpl total. change (INR 0) with 0.
    rewrite (Rmult_0_l (0/0)). field. lra.
  - assert (0 < INR (List.length (x :: l1))) by (apply lt_0_INR; simpl; lia). rewrite plus_INR. field. lra.
Qed.
Lemma total_scal (f : R -> R) c l : total (map (fun x => c * f x) l) = c * total (map f l).
Proof. induction l; simpl; [lra|]. rewrite IHl. lra. Qed.
Lemma total_add (f g : R -> R) l : total (map (fun x => f x + g x) l) = total (map f l) + total (map g l).
Proof. induction l; simpl; [lra|]. rewrite IHl. lra. Qed.
Lemma total_const c (l : list R) : total (map (fun _ => c) l) = INR (List.length l) * c.
Proof. induction l; [simpl; lra|]. cbn [map total fold_right]. fold (total (map (fun _ => c) l)). rewrite IHl. simpl List.length. rewrite S_INR. lra. Qed.

Definition moment (c : R) (k : nat) (l : list R) : R := average (map (fun x => (x - c)^k) l).

(** the state, as far as moments are concerned: [D ix] are the data of component ix *)
Definition moments_inv (v : list nat) (N : nat) (D : list nat -> list R) (a : mc R) : Prop :=
  exists c mean m1 m2 m3 m4, mc_center a = Some c /\ mc_mean a = Some mean /\ mc_moments a = Some [m1; m2; m3; m4] /\
    shp c = v /\ shp mean = v /\ shp m1 = v /\ shp m2 = v /\ shp m3 = v /\ shp m4 = v /\
    forall ix, inb v ix -> List.length (D ix) = N /\ dat mean ix = average (D ix) /\
      dat m1 ix = moment (dat c ix) 1 (D ix) /\ dat m2 ix = moment (dat c ix) 2 (D ix) /\
      dat m3 ix = moment (dat c ix) 3 (D ix) /\ dat m4 ix = moment (dat c ix) 4 (D ix).

Lemma cumulate_ok N M v (x y : arr R) : shp x = v -> shp y = v -> exists z, cumulate N M x y = Ok z /\ shp z = v /\
  forall ix, inb v ix -> dat z ix = (INR N * dat x ix + INR M * dat y ix) / INR (N + M).
Proof.
  intros SX SY. unfold cumulate, aop. rewrite SX, SY. rewrite bshape_can_l by apply can_refl. cbv beta iota delta [rbind].
  rewrite assign_can by apply can_refl. eexists. split; [reflexivity|]. split; [auto|]. intros ix Hix. cbn [dat]. rewrite bget_self by auto. cbn [dat].
  rewrite !bget_self by congruence. reflexivity.
Qed.
Lemma cumulate_step N M v (x y : arr R) (f : R -> R) (l1 l2 : list R) z : shp x = v -> shp y = (v ++ [M])%list -> (0 < M)%nat ->
  cumulate N M x (mean_last y) = Ok z -> forall ix, inb v ix -> dat x ix = average (map f l1) -> row y ix = map f l2 ->
  List.length l1 = N -> dat z ix = average (map f (l1 ++ l2)).
Proof.
  intros SX SY HM EZ ix Hix EX EY L1.
  assert (SM : shp (mean_last y) = v) by (unfold mean_last; cbn [shp]; rewrite SY; apply removelast_snoc).
  destruct (cumulate_ok N M v x (mean_last y) SX SM) as (z' & E' & _ & G). rewrite E' in EZ. injection EZ as <-.
  rewrite (G ix Hix), EX. unfold mean_last. cbn [dat]. rewrite nmean_average, EY.
  assert (L2 : List.length l2 = M) by (rewrite <- (map_length f l2), <- EY, row_length, SY, last_snoc; reflexivity).
  rewrite map_app, average_app by (rewrite map_length; lia). rewrite !map_length, L1, L2. reflexivity.
Qed.

(** one step; [D' ix] are the new data *)
Lemma moments_step_ok v N M D D' a y : shp y = (v ++ [M])%list -> (0 < M)%nat ->
  (forall ix, inb v ix -> row y ix = D' ix) -> moments_inv v N D a ->
  exists a', mc_moments_step N y a = Ok a' /\ moments_inv v (N + M) (fun ix => D ix ++ D' ix)%list a' /\
    mc_bins a' = mc_bins a /\ mc_range a' = mc_range a /\ mc_use a' = mc_use a /\ mc_counts a' = mc_counts a /\
    mc_outside a' = mc_outside a /\ mc_center a' = mc_center a.
Proof.
  intros SY HM HR (c & mean & m1 & m2 & m3 & m4 & EC & EME & EMO & SC & SME & S1 & S2 & S3 & S4 & H).
  unfold mc_moments_step. rewrite EC, EME, EMO. unfold aop. cbn [shp new_last]. rewrite SY, SC.
  rewrite bshape_can_r by (apply can_snoc; auto). cbv beta iota delta [rbind]. cbn [shp]. rewrite assign_can by apply can_refl. cbv beta iota.
  set (s0 := bget (mkArr (v ++ [M])%list _)).
  assert (E0 : forall ix j, inb v ix -> (j < M)%nat -> s0 (ix ++ [j])%list = dat y (ix ++ [j])%list - dat c ix).
  { intros ix j Hix Hj. unfold s0. rewrite bget_self by (cbn [shp]; apply inb_snoc; auto). cbn [dat]. rewrite bget_self by (rewrite SY; apply inb_snoc; auto).
    unfold bget. cbn [new_last shp dat]. rewrite SC, bidx_snoc, removelast_snoc, bidx_id by auto. reflexivity. }
  assert (RK : forall (s : list nat -> R) k, (forall ix j, inb v ix -> (j < M)%nat -> s (ix ++ [j])%list = (dat y (ix ++ [j])%list - dat c ix)^k) ->
     forall ix, inb v ix -> row (mkArr (v ++ [M])%list s) ix = map (fun x => (x - dat c ix)^k) (D' ix)).
  { intros s k Hs ix Hix. rewrite <- HR by auto. unfold row. cbn [shp]. rewrite SY, last_snoc, map_map. apply map_ext_in. intros j Hj. apply in_seq in Hj. cbn [dat]. apply Hs; auto; lia. }
  rewrite last_snoc. cbn [powers map cumulate_all].
  assert (SS : forall s : list nat -> R, shp (mean_last (mkArr (v ++ [M])%list s)) = v) by (intro; unfold mean_last; cbn [shp]; apply removelast_snoc).
  assert (SYL : shp (mean_last y) = v) by (unfold mean_last; cbn [shp]; rewrite SY; apply removelast_snoc).
  set (t1 := mean_last (mkArr (v ++ [M])%list s0)). set (t2 := mean_last (mkArr (v ++ [M])%list (fun ix => nmul (s0 ix) (s0 ix)))).
  set (t3 := mean_last (mkArr (v ++ [M])%list (fun ix => nmul (nmul (s0 ix) (s0 ix)) (s0 ix)))).
  set (t4 := mean_last (mkArr (v ++ [M])%list (fun ix => nmul (nmul (nmul (s0 ix) (s0 ix)) (s0 ix)) (s0 ix)))).
  destruct (cumulate_ok N M v m1 t1 S1 (SS _)) as (z1 & Z1 & SZ1 & _). destruct (cumulate_ok N M v m2 t2 S2 (SS _)) as (z2 & Z2 & SZ2 & _).
  destruct (cumulate_ok N M v m3 t3 S3 (SS _)) as (z3 & Z3 & SZ3 & _). destruct (cumulate_ok N M v m4 t4 S4 (SS _)) as (z4 & Z4 & SZ4 & _).
  destruct (cumulate_ok N M v mean (mean_last y) SME SYL) as (z0 & Z0 & SZ0 & _).
  rewrite Z1, Z2, Z3, Z4, Z0. eexists. split; [reflexivity|]. split; [|repeat split; auto].
  exists c, z0, z1, z2, z3, z4. do 9 (split; [auto|]). intros ix Hix. destruct (H ix Hix) as (L & A0 & A1 & A2 & A3 & A4).
  assert (LD : List.length (D' ix) = M) by (rewrite <- HR, row_length, SY, last_snoc by auto; reflexivity).
  split; [rewrite app_length; lia|]. unfold moment in *. repeat split.
  - rewrite <- (map_id (D ix ++ D' ix)). refine (cumulate_step N M v mean y (fun x => x) (D ix) (D' ix) z0 SME SY HM Z0 ix Hix _ _ L); rewrite map_id; auto.
  - refine (cumulate_step N M v m1 (mkArr (v ++ [M])%list _) _ (D ix) (D' ix) z1 S1 eq_refl HM Z1 ix Hix A1 _ L). apply RK; auto. intros i j Hi Hj. cbv beta. rewrite (E0 i j Hi Hj). simpl. ring.
  - refine (cumulate_step N M v m2 (mkArr (v ++ [M])%list _) _ (D ix) (D' ix) z2 S2 eq_refl HM Z2 ix Hix A2 _ L). apply RK; auto. intros i j Hi Hj. cbv beta. rewrite (E0 i j Hi Hj). simpl. ring.
  - refine (cumulate_step N M v m3 (mkArr (v ++ [M])%list _) _ (D ix) (D' ix) z3 S3 eq_refl HM Z3 ix Hix A3 _ L). apply RK; auto. intros i j Hi Hj. cbv beta. rewrite (E0 i j Hi Hj). simpl. ring.
  - refine (cumulate_step N M v m4 (mkArr (v ++ [M])%list _) _ (D ix) (D' ix) z4 S4 eq_refl HM Z4 ix Hix A4 _ L). apply RK; auto. intros i j Hi Hj. cbv beta. rewrite (E0 i j Hi Hj). simpl. ring.
Qed.
Lemma init_inv v M y a : shp y = (v ++ [M])%list -> moments_inv v 0 (fun _ => []) (mc_init_moments true y a).
Proof.
  intro SY. unfold mc_init_moments. rewrite SY, removelast_snoc. unfold moments_inv. cbn [mc_center mc_mean mc_moments repeat].
  exists (mean_last y), (zeros v), (zeros v), (zeros v), (zeros v), (zeros v). do 3 (split; [reflexivity|]).
  split; [unfold mean_last; cbn [shp]; rewrite SY; apply removelast_snoc|]. do 5 (split; [reflexivity|]).
  intros ix Hix. split; [reflexivity|]. unfold moment, average. simpl. repeat split; lra.
Qed.

(** centering does not matter *)
Definition sums (c : R) (l : list R) := (moment c 1 l, moment c 2 l, moment c 3 l, moment c 4 l).
Lemma moment_center c l : (0 < List.length l)%nat -> let m := average l in let d := m - c in
  moment c 1 l = d /\ moment c 2 l = central 2 l + d^2 /\ moment c 3 l = central 3 l + 3*d*central 2 l + d^3 /\
  moment c 4 l = central 4 l + 4*d*central 3 l + 6*d^2*central 2 l + d^4.
Proof.
  intros L m d. assert (P : 0 < INR (List.length l)) by (apply lt_0_INR; auto).
  set (C k := total (map (fun x => (x - m)^k) l)).
  assert (C1 : C 1%nat = 0).
  { unfold C. rewrite (map_ext _ (fun x => x + (- m))) by (intro; simpl; ring). rewrite (total_add (fun x => x) (fun _ => - m)), map_id, total_const.
    unfold m, average. field. lra. }
  assert (EC : forall k, central k l = C k / INR (List.length l)) by (intro k; unfold central, C, average; rewrite map_length; reflexivity).
  assert (EM : forall k, moment c k l = total (map (fun x => ((x - m) + d)^k) l) / INR (List.length l)).
  { intro k. unfold moment, average. rewrite map_length. do 2 f_equal. apply map_ext. intro x. f_equal. unfold d. ring. }
  rewrite !EC, !EM.
  assert (K : forall k, total (map (fun _ => d^k) l) = INR (List.length l) * d^k) by (intro; apply total_const).
  repeat split.
  - rewrite (map_ext _ (fun x => (x - m)^1 + d)) by (intro; ring). rewrite total_add, total_const. fold (C 1%nat). rewrite C1. field. lra.
  - rewrite (map_ext _ (fun x => (x - m)^2 + (2*d*(x-m)^1 + d^2))) by (intro; ring).
    rewrite total_add, (total_add (fun x => 2*d*(x-m)^1)), (total_scal (fun x => (x-m)^1)), total_const. fold (C 1%nat) (C 2%nat). rewrite C1. field. lra.
  - rewrite (map_ext _ (fun x => (x - m)^3 + (3*d*(x-m)^2 + (3*d^2*(x-m)^1 + d^3)))) by (intro; ring).
    rewrite total_add, (total_add (fun x => 3*d*(x-m)^2)), (total_scal (fun x => (x-m)^2)), (total_add (fun x => 3*d^2*(x-m)^1)), (total_scal (fun x => (x-m)^1)), total_const.
    fold (C 1%nat) (C 2%nat) (C 3%nat). rewrite C1. field. lra.
  - rewrite (map_ext _ (fun x => (x - m)^4 + (4*d*(x-m)^3 + (6*d^2*(x-m)^2 + (4*d^3*(x-m)^1 + d^4))))) by (intro; ring).
    rewrite total_add, (total_add (fun x => 4*d*(x-m)^3)), (total_scal (fun x => (x-m)^3)), (total_add (fun x => 6*d^2*(x-m)^2)), (total_scal (fun x => (x-m)^2)),
      (total_add (fun x => 4*d^3*(x-m)^1)), (total_scal (fun x => (x-m)^1)), total_const.
    fold (C 1%nat) (C 2%nat) (C 3%nat) (C 4%nat). rewrite C1. field. lra.
Qed.
