(** Properties of the process class: interpolation (C34), increments (C35), rebasing (C36), piecewise constant processes (C43). *)
From Coq Require Import String List Arith Bool Lia ZArith Reals Lra.
From Verif Require Import Base BaseNum BaseArr BaseNd BaseIdx M_mc M_process S_mc S_process L_nd L_mc L_interp L_process L_process2 P_process.
Import ListNotations.
Local Open Scope R_scope.
Implicit Types (p q : proc R).

Lemma wf_length p : wf p -> (1 <= List.length (pt p))%nat.
Proof. intros [H _]. destruct (pt p); [contradiction|simpl; lia]. Qed.

(** *** C34 *)
(** p(s) at each entry of s is the value at that time; its shape is that of s followed by values and paths *)
Theorem C34_shape p kind s : exists f, call p kind s None = Ok f /\ shp f = shp s ++ comp p /\
  forall ix r, inb (shp s) ix -> inb (comp p) r -> dat f (ix ++ r) = value p kind (dat s ix) r.
Proof. exists (interp p kind s). split; [reflexivity|]. split; [reflexivity|]. intros ix r H1 H2. apply interp_entry; auto. Qed.
(** linear interpolation is the function joining the stored points, constant outside *)
Theorem C34_linear p s r : wf p -> increasing (pt p) -> joins (pt p) (along p r) s (value p (Some Linear) s r) /\
  (pk p = Linear -> value p None s r = value p (Some Linear) s r).
Proof.
  intros W I. assert (L := wf_length p W). split; [apply linear_joins; auto; apply along_length|]. intro K. rewrite !value_interp1, K. reflexivity.
Qed.
(** there is only one such function *)
Theorem C34_unique t x s y z : increasing t -> (1 <= List.length t)%nat -> joins t x s y -> joins t x s z -> y = z.
Proof. apply joins_unique. Qed.
Print Assumptions C34_unique.
(** stored values at the time points, for both kinds *)
Theorem C34_nodes p kind i r : wf p -> increasing (pt p) -> (i < List.length (pt p))%nat -> value p kind (nth i (pt p) 0) r = dat (px p) (i :: r).
Proof.
  intros W I L. rewrite <- along_nth by auto. rewrite value_interp1. destruct (Nat.eq_dec (List.length (pt p)) 1) as [L1|L1].
  - rewrite interp1_one by auto. f_equal. lia.
  - destruct (match kind with Some k => k | None => pk p end).
    + rewrite interp1_linear by lia. apply interp_node; auto; lia.
    + rewrite interp1_nearest by lia. apply nearest_at; auto.
      * apply increasing_nondecreasing; auto.
      * rewrite last_nth. split; apply increasing_le; auto; lia.
      * destruct i as [|i]; [auto|right]. simpl Nat.sub. rewrite Nat.sub_0_r. specialize (I i (S i) ltac:(lia) L). lra.
      * destruct (Nat.eq_dec i (List.length (pt p) - 1)) as [->|]; [auto|right]. specialize (I i (S i) ltac:(lia) ltac:(lia)). lra.
Qed.
(** constant outside the timeline, for both kinds *)
Theorem C34_outside p kind s r : wf p -> increasing (pt p) ->
  (s <= nth 0 (pt p) 0 -> value p kind s r = dat (px p) (0%nat :: r)) /\ (last (pt p) 0 <= s -> value p kind s r = dat (px p) ((List.length (pt p) - 1)%nat :: r)).
Proof.
  intros W I. assert (L := wf_length p W). assert (AL := along_length p r). rewrite <- !along_nth by lia. rewrite value_interp1. destruct (Nat.eq_dec (List.length (pt p)) 1) as [L1|L1].
  - rewrite interp1_one by auto. split; intros _; auto. f_equal. lia.
  - assert (LT : nth 0 (pt p) 0 < last (pt p) 0) by (rewrite last_nth; apply I; lia).
    destruct (match kind with Some k => k | None => pk p end) eqn:K.
    + destruct (linear_joins (pt p) (along p r) s I L AL) as (J1 & J2 & _). split; [exact J1|]. intro H. rewrite (J2 H), last_nth, AL. reflexivity.
    + split; intro H; rewrite interp1_nearest by lia.
      * destruct (Req_dec s (nth 0 (pt p) 0)) as [->|]; [|apply nearest_low; lra]. apply nearest_at; auto; [apply increasing_nondecreasing; auto|lra|].
        right. specialize (I 0%nat 1%nat ltac:(lia) ltac:(lia)). lra.
      * destruct (Req_dec s (last (pt p) 0)) as [->|]; [|rewrite nearest_high by lra; rewrite last_nth, AL; reflexivity]. apply nearest_at; auto; [apply increasing_nondecreasing; auto|lia|lra|].
        right. rewrite last_nth. specialize (I (List.length (pt p) - 1 - 1)%nat (List.length (pt p) - 1)%nat ltac:(lia) ltac:(lia)). lra.
Qed.
(** between two time points, values are between the neighbouring ones *)
Theorem C34_between p s r i lo hi : wf p -> increasing (pt p) -> (S i < List.length (pt p))%nat -> nth i (pt p) 0 <= s <= nth (S i) (pt p) 0 ->
  lo <= dat (px p) (i :: r) <= hi -> lo <= dat (px p) (S i :: r) <= hi -> lo <= value p (Some Linear) s r <= hi.
Proof.
  intros W I L S A B. rewrite value_interp1, interp1_linear by lia. rewrite (interp_in _ _ _ _ s (1 + i)); auto; try lia; [|simpl; rewrite Nat.sub_0_r; auto].
  apply line_bounds; simpl Nat.sub; rewrite ?Nat.sub_0_r; [apply I; lia|auto|rewrite along_nth by lia; auto|].
  change (1 + i)%nat with (Datatypes.S i). rewrite along_nth by lia. auto.
Qed.
(** a process with one time point is constant *)
Theorem C34_constant p kind s r : List.length (pt p) = 1%nat -> value p kind s r = dat (px p) (0%nat :: r).
Proof. intro L. rewrite value_interp1, interp1_one by auto. apply along_nth. lia. Qed.
Print Assumptions C34_constant.
(** kind 'nearest': the value at a nearest time point, the earlier one at mid points *)
Theorem C34_nearest p s r i : wf p -> increasing (pt p) -> (i < List.length (pt p))%nat ->
  (forall j, (j < i)%nat -> Rabs (s - nth i (pt p) 0) < Rabs (s - nth j (pt p) 0)) ->
  (forall j, (i < j < List.length (pt p))%nat -> Rabs (s - nth i (pt p) 0) <= Rabs (s - nth j (pt p) 0)) ->
  value p (Some Nearest) s r = dat (px p) (i :: r).
Proof.
  intros W I L A B. assert (AL := along_length p r). rewrite <- along_nth by lia. rewrite value_interp1. destruct (Nat.eq_dec (List.length (pt p)) 1) as [L1|L1].
  { rewrite interp1_one by auto. f_equal. lia. }
  assert (AA : i = 0%nat \/ (nth (i - 1) (pt p) 0 + nth i (pt p) 0)/2 < s).
  { destruct i as [|i]; [auto|right]. simpl Nat.sub. rewrite Nat.sub_0_r. specialize (A i ltac:(lia)). specialize (I i (S i) ltac:(lia) L). unfold Rabs in A. destruct (Rcase_abs _), (Rcase_abs _); lra. }
  assert (BB : i = (List.length (pt p) - 1)%nat \/ s <= (nth i (pt p) 0 + nth (S i) (pt p) 0)/2).
  { destruct (Nat.eq_dec i (List.length (pt p) - 1)); [auto|right]. specialize (B (S i) ltac:(lia)). specialize (I i (S i) ltac:(lia) ltac:(lia)). unfold Rabs in B. destruct (Rcase_abs _), (Rcase_abs _); lra. }
  rewrite interp1_nearest by lia. assert (LT : nth 0 (pt p) 0 < last (pt p) 0) by (rewrite last_nth; apply I; lia).
  destruct (Rlt_dec s (nth 0 (pt p) 0)) as [S0|S0].
  - rewrite nearest_low by auto. f_equal. destruct AA as [|AA]; auto. destruct i as [|i]; auto. simpl in AA. rewrite Nat.sub_0_r in AA. specialize (I i (S i) ltac:(lia) L) as I1. pose proof (increasing_le _ 0 i I ltac:(lia) ltac:(lia)). lra.
  - destruct (Rlt_dec (last (pt p) 0) s) as [S1|S1].
    + rewrite nearest_high by lra. rewrite last_nth, AL. f_equal. destruct (Nat.eq_dec i (List.length (pt p) - 1)) as [E|E]; auto. exfalso. destruct BB as [|BB]; auto.
      pose proof (increasing_le _ i (List.length (pt p) - 1) I ltac:(lia) ltac:(lia)). pose proof (increasing_le _ (S i) (List.length (pt p) - 1) I ltac:(lia) ltac:(lia)). rewrite last_nth in S1. lra.
    + apply nearest_at; auto; [apply increasing_nondecreasing; auto|lra].
Qed.

Definition rp : proc R := mkProc [0; 2; 3] (mkArr [3; 1]%nat (fun ix => match ix with [i; _] => nth i [10; 20; 5] 0 | _ => 0 end)) Linear.
Example rp_wf : wf rp /\ increasing (pt rp).
Proof.
  split; [split; [discriminate|simpl; eauto]|]. intros i j H1 H2. simpl in H2. destruct j as [|[|[|j]]]; try lia; destruct i as [|[|i]]; try lia; simpl; lra.
Qed.
Example C34_ex : value rp (Some Linear) 1 [0%nat] = 15 /\ value rp (Some Linear) 2 [0%nat] = 20 /\ value rp (Some Linear) 7 [0%nat] = 5 /\ value rp (Some Nearest) 1 [0%nat] = 10.
Proof.
  destruct rp_wf as [W I]. split; [|split; [|split]].
  - destruct (C34_linear rp 1 [0%nat] W I) as [(_ & _ & J) _]. rewrite (J 0%nat); simpl; lia || lra.
  - apply (C34_nodes rp (Some Linear) 1 [0%nat]); auto; simpl; lia.
  - apply (C34_outside rp (Some Linear) 7 [0%nat]); auto; simpl; lra.
  - apply (C34_nearest rp 1 [0%nat] 0); auto; simpl; try lia. intros [|[|[|j]]] Hj; try lia; simpl; unfold Rabs; destruct (Rcase_abs _), (Rcase_abs _); lra.
Qed.
Print Assumptions C34_shape.
Print Assumptions C34_linear.
Print Assumptions C34_nodes.
Print Assumptions C34_outside.
Print Assumptions C34_between.
Print Assumptions C34_nearest.

(** *** C35 *)
(** p(s, ds), for arrays s and ds that can be broadcast together: at each entry, the difference of values *)
Theorem C35_increments p kind s ds w : can (shp s) w = true -> can (shp ds) w = true ->
  exists d, call p kind s (Some ds) = Ok d /\ can (shp d) (w ++ comp p) = true /\
    forall ix r, inb w ix -> inb (comp p) r -> bget d (ix ++ r) = value p kind (bget s ix + bget ds ix) r - value p kind (bget s ix) r.
Proof. apply call_entries. Qed.
(** increments over adjacent intervals add up *)
Theorem C35_additive p kind s a b w : can (shp s) w = true -> can (shp a) w = true -> can (shp b) w = true ->
  exists sa ab d1 d2 d3, aop Rplus s a = Ok sa /\ aop Rplus a b = Ok ab /\
    call p kind s (Some a) = Ok d1 /\ call p kind sa (Some b) = Ok d2 /\ call p kind s (Some ab) = Ok d3 /\
    forall ix r, inb w ix -> inb (comp p) r -> bget d1 (ix ++ r) + bget d2 (ix ++ r) = bget d3 (ix ++ r).
Proof.
  intros C1 C2 C3. destruct (aop_ok Rplus s a w C1 C2) as (sa & E1 & C4). destruct (aop_ok Rplus a b w C2 C3) as (ab & E2 & C5).
  destruct (call_entries p kind s a w C1 C2) as (d1 & D1 & _ & F1). destruct (call_entries p kind sa b w C4 C3) as (d2 & D2 & _ & F2). destruct (call_entries p kind s ab w C1 C5) as (d3 & D3 & _ & F3).
  exists sa, ab, d1, d2, d3. do 5 (split; [auto|]). intros ix r HI HR. rewrite F1, F2, F3 by auto. rewrite (aop_get _ _ _ _ ix E1), (aop_get _ _ _ _ ix E2).
  replace (bget s ix + (bget a ix + bget b ix)) with (bget s ix + bget a ix + bget b ix) by ring. ring.
Qed.
(** no increment over an empty interval *)
Theorem C35_zero p kind s ds w : can (shp s) w = true -> can (shp ds) w = true -> (forall ix, inb w ix -> bget ds ix = 0) ->
  exists d, call p kind s (Some ds) = Ok d /\ forall ix r, inb w ix -> inb (comp p) r -> bget d (ix ++ r) = 0.
Proof.
  intros C1 C2 Z. destruct (call_entries p kind s ds w C1 C2) as (d & D & _ & F). exists d. split; auto. intros ix r HI HR. rewrite F by auto. rewrite Z by auto. rewrite Rplus_0_r. ring.
Qed.
Example C35_ex : exists d, call rp None (ascalar 1) (Some (ascalar 1)) = Ok d /\ bget d [0%nat] = 5.
Proof.
  destruct (C35_increments rp None (ascalar 1) (ascalar 1) [] eq_refl eq_refl) as (d & D & _ & F). exists d. split; auto.
  change [0%nat] with (@nil nat ++ [0%nat]). rewrite (F [] [0%nat]); [|constructor|repeat constructor]. rewrite !bget_scalar. replace (1 + 1) with 2 by ring. destruct rp_wf as [W I].
  change (value rp None 2 [0%nat]) with (value rp (Some Linear) 2 [0%nat]). change (value rp None 1 [0%nat]) with (value rp (Some Linear) 1 [0%nat]).
  destruct C34_ex as (-> & -> & _). ring.
Qed.
Print Assumptions C35_increments.
Print Assumptions C35_additive.
Print Assumptions C35_zero.

(** *** C36 *)
Theorem C36_any p kind t : wf p -> (shp t = [] \/ exists n, n <> 0%nat /\ shp t = [n]) ->
  exists q, rebase p kind t = Ok q /\ pt q = times t /\ comp q = comp p /\ wf q /\
    forall i r, (i < List.length (times t))%nat -> dat (px q) (i :: r) = value p kind (nth i (times t) 0) r.
Proof.
  intros [P0 [r0 P]] T. unfold rebase. set (t1 := match shp t with [] => mkArr [1%nat] (fun _ => dat t []) | _ => t end).
  assert (TT : times t1 = times t).
  { unfold t1. destruct T as [E|(n & N & E)]; rewrite E; auto. unfold times. rewrite E. reflexivity. }
  assert (T1' : exists n, n <> 0%nat /\ shp t1 = [n]).
  { unfold t1. destruct T as [E|(n & N & E)]; rewrite E; [exists 1%nat; auto|exists n; auto]. }
  destruct T1' as (n & N & E1).
  assert (LT : List.length (times t1) = n) by (rewrite times_length, E1; auto).
  destruct (proj2 (C33_succeeds t1 (Some (interp p kind t1)) None None)) as [q Q].
  { split; [right; eauto|]. left. do 2 eexists. do 3 (split; [reflexivity|]). unfold interp. cbn [shp]. rewrite E1, LT. reflexivity. }
  exists q. split; auto. destruct (C33_x _ _ _ Q) as (Q1 & Q2 & Q3 & Q4). rewrite TT in Q1. split; auto.
  split; [unfold comp; rewrite Q2; unfold interp; cbn [shp]; rewrite E1; reflexivity|]. split; auto.
  intros i r Hi. rewrite Q2, <- TT. change (i :: r) with ([i] ++ r). rewrite interp_entry by (rewrite E1; repeat constructor; rewrite <- TT in Hi; lia).
  f_equal. unfold times. rewrite E1. rewrite nth_indep with (d' := (fun i => dat t1 [i]) 0%nat) by (rewrite map_length, seq_length; rewrite <- TT in Hi; lia).
  rewrite (map_nth (fun i => dat t1 [i]) (seq 0 n) 0%nat i). rewrite seq_nth; auto. rewrite <- TT in Hi. lia.
Qed.
(** other shapes are refused *)
Theorem C36_refused p kind t : ~ (shp t = [] \/ exists n, n <> 0%nat /\ shp t = [n]) -> rebase p kind t = Err ValueError.
Proof.
  intro N. unfold rebase. destruct (shp t) as [|n s] eqn:E; [exfalso; auto|]. unfold process_new. rewrite E. cbn [List.length].
  destruct s as [|m s]; [|reflexivity]. destruct n; [reflexivity|]. exfalso. apply N. right. exists (S n). auto.
Qed.
Lemma vec_times (l : list R) : times (vec l) = l.
Proof.
  unfold times, vec. cbn [shp dat]. apply nth_ext with (d := 0) (d' := 0); rewrite map_length, seq_length; auto. intros i Hi.
  rewrite nth_indep with (d' := (fun i => nth (hd 0%nat [i]) l nzero) 0%nat) by (rewrite map_length, seq_length; auto).
  rewrite (map_nth (fun i => nth (hd 0%nat [i]) l nzero) (seq 0 (List.length l)) 0%nat i). rewrite seq_nth; auto.
Qed.
Lemma vec_shape (l : list R) : l <> [] -> shp (vec l) = [] \/ exists n, n <> 0%nat /\ shp (vec l) = [n].
Proof. intro H. right. exists (List.length l). split; auto. destruct l; [contradiction|discriminate]. Qed.
(** on the same timeline, the same process *)
Theorem C36_own p kind : wf p -> increasing (pt p) -> exists q, rebase p kind (vec (pt p)) = Ok q /\ pt q = pt p /\ aeq (px q) (px p).
Proof.
  intros W I. destruct (C36_any p kind (vec (pt p)) W (vec_shape _ (proj1 W))) as (q & Q1 & Q2 & Q3 & [_ [rq Q4]] & Q5). rewrite vec_times in *. exists q. split; auto. split; auto.
  destruct W as [P0 [rp' P]]. split.
  - unfold comp in Q3. rewrite Q4, P in *. cbn [tl] in Q3. rewrite Q2, Q3. reflexivity.
  - intros ix H. rewrite Q4 in H. inversion H as [|i d ix' s' H1 H2]; subst. rewrite Q2 in H1. rewrite Q5 by auto. apply C34_nodes; auto. split; eauto.
Qed.
(** linear interpolation on a finer timeline *)
Lemma linear_refine t x u f s : increasing t -> increasing u -> (1 <= List.length t)%nat -> (forall a, In a t -> In a u) ->
  (forall s, joins t x s (f s)) -> joins u (map f u) s (f s).
Proof.
  intros IT IU N INC J. assert (NU : (1 <= List.length u)%nat) by (destruct t as [|a t]; [simpl in N; lia|]; specialize (INC a (or_introl eq_refl)); destruct u; [contradiction|simpl; lia]).
  assert (MN : forall j, (j < List.length u)%nat -> nth j (map f u) 0 = f (nth j u 0)).
  { intros j Hj. rewrite nth_indep with (d' := f 0) by (rewrite map_length; auto). apply map_nth. }
  assert (POS : forall a, In a t -> exists k, (k < List.length u)%nat /\ nth k u 0 = a) by (intros a Ha; destruct (In_nth u a 0 (INC a Ha)) as (k & K1 & K2); eauto).
  assert (T0 : In (nth 0 t 0) t) by (apply nth_In; lia). assert (T1 : In (last t 0) t) by (rewrite last_nth; apply nth_In; lia).
  assert (U0 : nth 0 u 0 <= nth 0 t 0) by (destruct (POS _ T0) as (k & K1 & <-); apply increasing_le; auto; lia).
  assert (U1 : last t 0 <= last u 0) by (destruct (POS _ T1) as (k & K1 & <-); rewrite last_nth; apply increasing_le; auto; lia).
  assert (TT : nth 0 t 0 <= last t 0) by (rewrite last_nth; apply increasing_le; auto; lia).
  split; [|split].
  - intro H. rewrite MN by lia. destruct (J s) as (J1 & _ & _). destruct (J (nth 0 u 0)) as (J2 & _ & _). rewrite J1, J2 by lra. reflexivity.
  - intro H. rewrite (last_nth (map f u)), map_length, MN by lia. rewrite <- last_nth. destruct (J s) as (_ & J1 & _). destruct (J (last u 0)) as (_ & J2 & _). rewrite J1, J2 by lra. reflexivity.
  - intros j Hj [S1 S2]. rewrite !MN by lia. set (a := nth j u 0) in *. set (b := nth (S j) u 0) in *. assert (AB : a < b) by (apply IU; lia).
    destruct (Req_dec s a) as [->|NA]; [field; lra|]. destruct (Req_dec s b) as [->|NB]; [field; lra|].
    (* no time point strictly between a and b *)
    assert (OUT : forall c, In c t -> c <= a \/ b <= c).
    { intros c Hc. destruct (POS c Hc) as (k & K1 & <-). destruct (Nat.le_gt_cases k j); [left|right]; apply increasing_le; auto; lia. }
    destruct (OUT _ T0) as [O0|O0].
    2:{ destruct (J s) as (J1 & _), (J a) as (J2 & _), (J b) as (J3 & _). rewrite J1, J2, J3 by lra. ring. }
    destruct (OUT _ T1) as [O1|O1].
    { destruct (J s) as (_ & J1 & _), (J a) as (_ & J2 & _), (J b) as (_ & J3 & _). rewrite J1, J2, J3 by lra. ring. }
    destruct (find_segment t s) as (i & I1 & I2); auto; try lra.
    assert (I3 : nth i t 0 <= a) by (destruct (OUT (nth i t 0)); [apply nth_In; lia|auto|lra]).
    assert (I4 : b <= nth (S i) t 0) by (destruct (OUT (nth (S i) t 0)); [apply nth_In; lia|lra|auto]).
    destruct (J s) as (_ & _ & J1), (J a) as (_ & _ & J2), (J b) as (_ & _ & J3). rewrite (J1 i), (J2 i), (J3 i) by (auto; lra). field. lra.
Qed.
Theorem C36_finer p u q s r : wf p -> increasing (pt p) -> increasing u -> (forall a, In a (pt p) -> In a u) ->
  rebase p (Some Linear) (vec u) = Ok q -> value q (Some Linear) s r = value p (Some Linear) s r.
Proof.
  intros W I IU INC H. assert (NE : u <> []) by (intros ->; destruct W as [W _]; destruct (pt p) as [|a t]; [contradiction|]; destruct (INC a (or_introl eq_refl))).
  destruct (C36_any p (Some Linear) (vec u) W (vec_shape _ NE)) as (q' & Q1 & Q2 & Q3 & Q4 & Q5). rewrite Q1 in H. injection H as ->. rewrite vec_times in *.
  assert (N := wf_length p W). assert (NQ := wf_length q Q4). rewrite Q2 in NQ.
  assert (AL : along q r = map (fun s => value p (Some Linear) s r) u).
  { assert (LA : List.length (along q r) = List.length u) by (rewrite along_length, Q2; auto).
    apply nth_ext with (d := 0) (d' := 0); rewrite LA; [rewrite map_length; auto|]. intros j Hj. rewrite along_nth by (rewrite Q2; auto). rewrite Q5 by auto.
    rewrite nth_indep with (l := map _ u) (d' := value p (Some Linear) 0 r) by (rewrite map_length; auto). rewrite (map_nth (fun s => value p (Some Linear) s r)). reflexivity. }
  apply (joins_unique u (map (fun s => value p (Some Linear) s r) u) s); auto.
  - rewrite <- AL, <- Q2. apply C34_linear; auto. rewrite Q2. auto.
  - apply (linear_refine (pt p) (along p r)); auto. intro s'. apply C34_linear; auto.
Qed.
(** the default kind of interpolation is not inherited: rebasing a piecewise constant process on its own timeline
    changes its values between time points *)
Theorem C36_kind_lost_refuted : exists p q s r, wf p /\ increasing (pt p) /\ rebase p None (vec (pt p)) = Ok q /\ value q None s r <> value p None s r.
Proof.
  set (p := mkProc (pt rp) (px rp) Nearest). assert (W : wf p) by (split; [discriminate|simpl; eauto]). assert (I : increasing (pt p)) by apply rp_wf.
  destruct (C36_any p None (vec (pt p)) W (vec_shape _ (proj1 W))) as (q & Q1 & Q2 & Q3 & Q4 & Q5). rewrite vec_times in *.
  exists p, q, 1, [0%nat]. do 3 (split; [auto|]).
  assert (K : pk q = Linear).
  { unfold rebase in Q1. change (match shp (vec (pt p)) with [] => mkArr [1%nat] (fun _ => dat (vec (pt p)) []) | _ => vec (pt p) end) with (vec (pt p)) in Q1. apply C33_x in Q1. tauto. }
  assert (E1 : value p None 1 [0%nat] = 10) by apply C34_ex.
  assert (E2 : value q None 1 [0%nat] = 15).
  { destruct (C34_linear q 1 [0%nat] Q4) as [(_ & _ & J) E]; [rewrite Q2; auto|]. rewrite (E K). rewrite (J 0%nat); rewrite ?Q2; [|simpl; lia|simpl; lra].
    rewrite !along_nth by (rewrite Q2; simpl; lia). rewrite !Q5 by (simpl; lia). rewrite !C34_nodes by (auto; simpl; lia). simpl. lra. }
  rewrite E1, E2. lra.
Qed.
Example C36_ex : exists q, rebase rp (Some Linear) (vec [-1; 0; 1; 2; 3]) = Ok q /\ dat (px q) [2%nat; 0%nat] = 15.
Proof.
  destruct rp_wf as [W I]. destruct (C36_any rp (Some Linear) (vec [-1; 0; 1; 2; 3]) W) as (q & Q1 & Q2 & Q3 & Q4 & Q5); [apply vec_shape; discriminate|]. exists q. split; auto.
  rewrite vec_times in *. rewrite Q5 by (simpl; lia). simpl nth. apply C34_ex.
Qed.
Print Assumptions C36_any.
Print Assumptions C36_refused.
Print Assumptions C36_own.
Print Assumptions C36_finer.
Print Assumptions C36_kind_lost_refuted.

(** *** C43 *)
Lemma doubled_length (t : list R) : List.length (doubled t) = (2 * List.length t)%nat.
Proof. induction t; simpl in *; lia. Qed.
Lemma doubled_nth (t : list R) : forall k, nth k (doubled t) 0 = nth (k/2) t 0.
Proof.
  induction t as [|a t IH]; intro k; [change (doubled []) with (@nil R); destruct k; simpl nth; match goal with |- _ = match ?m with _ => _ end => destruct m | _ => idtac end; reflexivity|].
  change (doubled (a :: t)) with (a :: a :: doubled t). destruct k as [|[|k]]; [reflexivity|reflexivity|]. cbn [nth].
  replace (S (S k)) with (k + 1 * 2)%nat by lia. rewrite Nat.div_add by lia. rewrite Nat.add_1_r. simpl nth. apply IH.
Qed.
Lemma half_even i : (2*i/2 = i)%nat.
Proof. rewrite Nat.mul_comm. apply Nat.div_mul. lia. Qed.
Lemma half_odd i : ((2*i + 1)/2 = i)%nat.
Proof. rewrite Nat.mul_comm. rewrite Nat.div_add_l by lia. simpl. lia. Qed.
Lemma doubled_nondecreasing t : increasing t -> nondecreasing (doubled t).
Proof.
  intros I i j H1 H2. rewrite doubled_length in H2. rewrite !doubled_nth. apply increasing_le; auto; [apply Nat.div_le_mono; lia|]. apply Nat.div_lt_upper_bound; lia.
Qed.
Lemma doubled_last (t : list R) : last (doubled t) 0 = last t 0.
Proof.
  rewrite !last_nth, doubled_length, doubled_nth. f_equal. destruct (List.length t) as [|n]; [reflexivity|]. replace (2 * S n - 1)%nat with (2*n + 1)%nat by lia. rewrite half_odd. lia.
Qed.

Section Doubled.
(** a process with every time point repeated, and the stored values at given positions *)
Variables (p q : proc R) (pos : nat -> nat).
Hypothesis W : wf p.
Hypothesis I : increasing (pt p).
Let n := List.length (pt p).
Hypothesis QT : pt q = doubled (pt p).
Hypothesis QX : forall k r, (k < 2*n)%nat -> dat (px q) (k :: r) = dat (px p) (pos k :: r).
Hypothesis QK : pk q = Nearest.

Lemma doubled_n : (1 <= n)%nat /\ List.length (pt q) = (2*n)%nat.
Proof using W QT. unfold n. rewrite QT, doubled_length. split; auto. apply wf_length; auto. Qed.
Lemma doubled_low s r : s < nth 0 (pt p) 0 -> value q None s r = dat (px p) (pos 0 :: r).
Proof using All.
  intro H. destruct doubled_n as [N L]. rewrite value_interp1, QK, interp1_nearest by lia. rewrite nearest_low by (rewrite QT, doubled_nth; exact H). rewrite along_nth by lia. apply QX. lia.
Qed.
Lemma doubled_high s r : last (pt p) 0 < s -> value q None s r = dat (px p) (pos (2*n - 1) :: r).
Proof using All.
  intro H. destruct doubled_n as [N L]. rewrite value_interp1, QK, interp1_nearest by lia. rewrite nearest_high.
  - rewrite last_nth, along_length, L. rewrite along_nth by lia. apply QX. lia.
  - rewrite QT, doubled_nth. simpl Nat.div. rewrite last_nth in H. pose proof (increasing_le (pt p) 0 (List.length (pt p) - 1) I ltac:(lia) ltac:(fold n; lia)). lra.
  - rewrite QT, doubled_last. auto.
Qed.
Lemma doubled_at s r k : nth 0 (pt p) 0 <= s <= last (pt p) 0 -> (k < 2*n)%nat -> (k = 0%nat \/ (nth ((k - 1)/2) (pt p) 0 + nth (k/2) (pt p) 0)/2 < s) ->
  (k = (2*n - 1)%nat \/ s <= (nth (k/2) (pt p) 0 + nth ((k + 1)/2) (pt p) 0)/2) -> value q None s r = dat (px p) (pos k :: r).
Proof using All.
  intros S K A B. destruct doubled_n as [N L]. rewrite value_interp1, QK, interp1_nearest by lia. rewrite <- QX, <- along_nth by lia. apply nearest_at; rewrite ?QT.
  - apply doubled_nondecreasing; auto.
  - rewrite <- QT. lia.
  - rewrite doubled_nth, doubled_last. exact S.
  - rewrite !doubled_nth. exact A.
  - rewrite !doubled_nth, <- QT, L. rewrite Nat.add_1_r in B. exact B.
Qed.
Lemma doubled_first s r : s = nth 0 (pt p) 0 -> value q None s r = dat (px p) (pos 0 :: r).
Proof using All.
  intros ->. destruct doubled_n as [N L]. apply doubled_at; [|lia|auto|].
  - rewrite last_nth. pose proof (increasing_le (pt p) 0 (List.length (pt p) - 1) I ltac:(lia) ltac:(fold n; lia)). lra.
  - right. simpl. lra.
Qed.
(** in an interval, before and after its mid point *)
Lemma doubled_in s r i : (S i < n)%nat -> nth i (pt p) 0 < s <= nth (S i) (pt p) 0 ->
  value q None s r = dat (px p) (pos (2*i + 1) :: r) \/ value q None s r = dat (px p) (pos (2*i + 2) :: r).
Proof using All.
  intros Hi [S1 S2]. destruct doubled_n as [N L].
  assert (R0 : nth 0 (pt p) 0 <= s <= last (pt p) 0).
  { rewrite last_nth. pose proof (increasing_le (pt p) 0 i I ltac:(lia) ltac:(fold n; lia)). pose proof (increasing_le (pt p) (S i) (List.length (pt p) - 1) I ltac:(fold n; lia) ltac:(fold n; lia)). lra. }
  assert (E1 : ((2*i + 1 - 1)/2 = i)%nat) by (replace (2*i + 1 - 1)%nat with (2*i)%nat by lia; apply half_even).
  assert (E2 : ((2*i + 1 + 1)/2 = S i)%nat) by (replace (2*i + 1 + 1)%nat with (2*S i)%nat by lia; apply half_even).
  destruct (Rle_dec s ((nth i (pt p) 0 + nth (S i) (pt p) 0)/2)) as [M|M]; [left|right]; apply doubled_at; auto; try lia.
  - right. rewrite E1, half_odd. lra.
  - right. rewrite half_odd, E2. lra.
  - right. replace (2*i + 2 - 1)%nat with (2*i + 1)%nat by lia. rewrite half_odd. replace (2*i + 2)%nat with (2*S i)%nat by lia. rewrite half_even. lra.
  - right. replace (2*i + 2)%nat with (2*S i)%nat by lia. rewrite half_even, half_odd. lra.
Qed.
End Doubled.

Lemma piecewise_doubled (p : proc R) pos : wf p ->
  exists q, process_from (doubled (pt p)) (mkArr ((2*List.length (pt p))%nat :: tl (shp (px p))) (fun ix => dat (px p) (pos (hd 0%nat ix) :: tl ix))) = Ok q /\
    pt q = doubled (pt p) /\ comp q = comp p /\ forall k r, dat (px q) (k :: r) = dat (px p) (pos k :: r).
Proof.
  intros [P0 [r P]]. eexists. split; [apply process_from_total; cbn [shp]; rewrite doubled_length; eauto|]. split; [reflexivity|]. split; [reflexivity|]. reflexivity.
Qed.

(** forward: x[i] after t[i] and up to t[i + 1] included, constant outside *)
Theorem C43_forward t x v p : process_new t x v None = Ok p -> wf p -> increasing (pt p) ->
  exists q, piecewise t x v "forward" = Ok q /\ comp q = comp p /\ forall s r,
    (s <= nth 0 (pt p) 0 -> value q None s r = dat (px p) (0%nat :: r)) /\
    (last (pt p) 0 < s -> value q None s r = dat (px p) ((List.length (pt p) - 1)%nat :: r)) /\
    forall i, (S i < List.length (pt p))%nat -> nth i (pt p) 0 < s <= nth (S i) (pt p) 0 -> value q None s r = dat (px p) (i :: r).
Proof.
  intros E W I. unfold piecewise. rewrite E. cbv beta iota delta [rbind]. cbn [String.eqb Ascii.eqb Bool.eqb].
  set (pos := fun k => if (k =? 0)%nat then 0%nat else ((k - 1)/2)%nat). destruct (piecewise_doubled p pos W) as (q & Q1 & Q2 & Q3 & Q4). unfold pos in Q1. rewrite Q1.
  eexists. split; [reflexivity|]. split; [exact Q3|]. intros s r. assert (N := wf_length p W).
  assert (X : forall k r, (k < 2 * List.length (pt p))%nat -> dat (px (mkProc (pt q) (px q) Nearest)) (k :: r) = dat (px p) (pos k :: r)) by (intros; apply Q4).
  split; [|split].
  - intro H. destruct (Req_dec s (nth 0 (pt p) 0)); [apply (doubled_first p _ pos W I); auto|]. apply (doubled_low p _ pos W I); auto. lra.
  - intro H. rewrite (doubled_high p _ pos W I); auto. unfold pos. destruct (Nat.eqb_spec (2 * List.length (pt p) - 1) 0); [lia|]. f_equal. f_equal.
    replace (2 * List.length (pt p) - 1 - 1)%nat with (2 * (List.length (pt p) - 1))%nat by lia. apply half_even.
  - intros i Hi Hs. destruct (doubled_in p (mkProc (pt q) (px q) Nearest) pos W I Q2 X eq_refl s r i Hi Hs) as [-> | ->]; unfold pos.
    + destruct (Nat.eqb_spec (2*i + 1) 0); [lia|]. replace (2*i + 1 - 1)%nat with (2*i)%nat by lia. rewrite half_even. reflexivity.
    + destruct (Nat.eqb_spec (2*i + 2) 0); [lia|]. replace (2*i + 2 - 1)%nat with (2*i + 1)%nat by lia. rewrite half_odd. reflexivity.
Qed.
(** backward: x[i + 1] after t[i] and up to t[i + 1] included *)
Theorem C43_backward t x v p : process_new t x v None = Ok p -> wf p -> increasing (pt p) ->
  exists q, piecewise t x v "backward" = Ok q /\ comp q = comp p /\ forall s r,
    (s <= nth 0 (pt p) 0 -> value q None s r = dat (px p) (0%nat :: r)) /\
    (last (pt p) 0 < s -> value q None s r = dat (px p) ((List.length (pt p) - 1)%nat :: r)) /\
    forall i, (S i < List.length (pt p))%nat -> nth i (pt p) 0 < s <= nth (S i) (pt p) 0 -> value q None s r = dat (px p) (S i :: r).
Proof.
  intros E W I. unfold piecewise. rewrite E. cbv beta iota delta [rbind]. cbn [String.eqb Ascii.eqb Bool.eqb]. assert (N := wf_length p W).
  set (pos := fun k => if (k =? 2*List.length (pt p) - 1)%nat then (List.length (pt p) - 1)%nat else ((k + 1)/2)%nat). destruct (piecewise_doubled p pos W) as (q & Q1 & Q2 & Q3 & Q4). unfold pos in Q1. rewrite Q1.
  eexists. split; [reflexivity|]. split; [exact Q3|]. intros s r.
  assert (X : forall k r, (k < 2 * List.length (pt p))%nat -> dat (px (mkProc (pt q) (px q) Nearest)) (k :: r) = dat (px p) (pos k :: r)) by (intros; apply Q4).
  assert (P0 : pos 0%nat = 0%nat) by (unfold pos; destruct (Nat.eqb_spec 0 (2*List.length (pt p) - 1)); [lia|reflexivity]).
  split; [|split].
  - intro H. destruct (Req_dec s (nth 0 (pt p) 0)); [rewrite (doubled_first p _ pos W I); auto; rewrite P0; auto|]. rewrite (doubled_low p _ pos W I); auto; [rewrite P0; auto|]. lra.
  - intro H. rewrite (doubled_high p _ pos W I); auto. unfold pos. rewrite Nat.eqb_refl. reflexivity.
  - intros i Hi Hs. destruct (doubled_in p (mkProc (pt q) (px q) Nearest) pos W I Q2 X eq_refl s r i Hi Hs) as [-> | ->]; unfold pos.
    + destruct (Nat.eqb_spec (2*i + 1) (2*List.length (pt p) - 1)); [lia|]. replace (2*i + 1 + 1)%nat with (2*S i)%nat by lia. rewrite half_even. reflexivity.
    + destruct (Nat.eqb_spec (2*i + 2) (2*List.length (pt p) - 1)); [lia|]. replace (2*i + 2 + 1)%nat with (2*S i + 1)%nat by lia. rewrite half_odd. reflexivity.
Qed.
(** mid: x[i] between the mid points of the intervals next to t[i] *)
Theorem C43_mid t x v p : process_new t x v None = Ok p -> wf p -> increasing (pt p) ->
  exists q, piecewise t x v "mid" = Ok q /\ pt q = pt p /\ px q = px p /\ forall s r i, (i < List.length (pt p))%nat ->
    (i = 0%nat \/ (nth (i - 1) (pt p) 0 + nth i (pt p) 0)/2 < s) -> (i = (List.length (pt p) - 1)%nat \/ s <= (nth i (pt p) 0 + nth (S i) (pt p) 0)/2) ->
    value q None s r = dat (px p) (i :: r).
Proof.
  intros E W I. unfold piecewise. rewrite E. cbv beta iota delta [rbind]. cbn [String.eqb Ascii.eqb Bool.eqb]. rewrite process_from_total by apply W.
  eexists. split; [reflexivity|]. split; [reflexivity|]. split; [reflexivity|]. intros s r i L A B.
  cbn [pt px]. change (value (mkProc (pt p) (px p) Nearest) None s r) with (value p (Some Nearest) s r). apply C34_nearest; auto.
  - intros j J. destruct A as [->|A]; [lia|]. pose proof (increasing_le (pt p) j (i - 1) I ltac:(lia) ltac:(lia)). pose proof (I (i - 1)%nat i ltac:(lia) L).
    unfold Rabs. destruct (Rcase_abs _), (Rcase_abs _); lra.
  - intros j J. destruct B as [->|B]; [lia|]. pose proof (increasing_le (pt p) (S i) j I ltac:(lia) ltac:(lia)). pose proof (I i (S i) ltac:(lia) ltac:(lia)).
    unfold Rabs. destruct (Rcase_abs _), (Rcase_abs _); lra.
Qed.
Theorem C43_unknown t x v mode p : process_new (V := R) t x v None = Ok p -> mode <> "mid"%string -> mode <> "forward"%string -> mode <> "backward"%string ->
  piecewise t x v mode = Err ValueError.
Proof. intros E N1 N2 N3. unfold piecewise. rewrite E. cbv beta iota delta [rbind]. apply String.eqb_neq in N1, N2, N3. rewrite N1, N2, N3. reflexivity. Qed.
(** the documentation says that in forward mode t[i] is the start of the segment with value x[i]: at t[i] itself, i >= 1, the value is x[i - 1] *)
Theorem C43_start_point_refuted : exists t x p q i r, process_new t (Some x) None None = Ok p /\ wf p /\ increasing (pt p) /\ (i < List.length (pt p))%nat /\
  piecewise t (Some x) None "forward" = Ok q /\ value q None (nth i (pt p) 0) r <> dat (px p) (i :: r).
Proof.
  exists (vec [0; 2; 3]), (px rp), (mkProc [0; 2; 3] (px rp) Linear). destruct rp_wf as [W I].
  destruct (C43_forward (vec [0; 2; 3]) (Some (px rp)) None rp eq_refl W I) as (q & Q1 & _ & Q3). exists q, 1%nat, [0%nat].
  do 3 (split; [first [reflexivity|assumption]|]). split; [simpl; lia|]. split; [exact Q1|]. destruct (Q3 (nth 1 (pt rp) 0) [0%nat]) as (_ & _ & Q4).
  change (pt (mkProc [0; 2; 3] (px rp) Linear)) with (pt rp). rewrite (Q4 0%nat) by (simpl; try lia; lra). simpl. lra.
Qed.
Example C43_ex : exists q, piecewise (vec [0; 2; 3]) (Some (px rp)) None "forward" = Ok q /\ value q None 1 [0%nat] = 10 /\ value q None (3/2) [0%nat] = 10 /\ value q None 4 [0%nat] = 5.
Proof.
  destruct rp_wf as [W I]. destruct (C43_forward (vec [0; 2; 3]) (Some (px rp)) None rp eq_refl W I) as (q & Q1 & _ & Q3). exists q. split; auto.
  split; [|split].
  - destruct (Q3 1 [0%nat]) as (_ & _ & Q4). apply (Q4 0%nat); simpl; try lia; lra.
  - destruct (Q3 (3/2) [0%nat]) as (_ & _ & Q4). apply (Q4 0%nat); simpl; try lia; lra.
  - destruct (Q3 4 [0%nat]) as (_ & Q4 & _). apply Q4. simpl. lra.
Qed.
Print Assumptions C43_forward.
Print Assumptions C43_backward.
Print Assumptions C43_mid.
Print Assumptions C43_unknown.
Print Assumptions C43_start_point_refuted.
