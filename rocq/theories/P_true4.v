(** C18, C20, C62: refutations, and examples for C18-C21. *)
From Coq Require Import List Arith Bool Lia ZArith Reals Lra Sorted.
From Verif Require Import Base BaseNum BaseArr BaseNd BaseIdx M_process M_source M_true S_process S_source S_mc S_true L_nd L_sdes L_process L_process2 L_source L_true L_true2 L_true3 L_true4 P_source P_true P_true2 P_true3 P_true5.
Import ListNotations.
Local Open Scope R_scope.

(** a generator that gives the numbers of a list, each increased by the leading index of the entry *)
Definition pop (s : list nat) (g : list R) : res (arr R) * list R := (Ok (mkArr s (fun ix => hd 0 g + INR (nth 0 ix 0%nat))), tl g).
Definition mvpop (c : arr R) (s : list nat) (g : list R) : res (arr R) * list R := (Ok (mkArr (s ++ [nth 0 (shp c) 0%nat]) (fun _ => hd 0 g)), tl g).
Lemma pop_ok : normal_ok pop.
Proof. intros s g. unfold pop. eauto. Qed.
Lemma mvpop_ok : mvnormal_ok mvpop.
Proof. intros M cov s g E. unfold mvpop. rewrite E. eauto. Qed.
Local Notation outside v t0 := (wiener_outside pop mvpop 1 v PNone t0).
Local Notation inside v t0 := (wiener_inside pop mvpop (fun a => Ok a) 1 v PNone t0).
Local Notation W v t0 rtol := (true_wiener pop mvpop (fun a => Ok a) 1 v PNone t0 rtol).
Local Notation ret v t0 rtol := (retrieve1 (fun w : arr R => w) (outside v t0) (inside v t0) rtol).
Local Notation dis v t0 := (wiener_disciplined pop mvpop (fun a => Ok a) 1 v PNone t0 pop_ok).
Lemma none_corr v : constant_corr v PNone.
Proof. left; auto. Qed.
Lemma unit_pop v g : exists x, dw pop mvpop 1 v PNone 0 1 g = (Ok x, tl g) /\ forall ix, inb (v ++ [1%nat]) ix -> dat x ix = hd 0 g + INR (nth 0 ix 0%nat).
Proof.
  unfold dw. destruct (C27_uncorrelated pop mvpop 1 v (ascalar 0) (ascalar 1) g [] pop_ok eq_refl) as (z & g' & x & Z1 & Z2 & Z3 & Z4). unfold pop in Z1. injection Z1 as <- <-. exists x. split; auto. intros ix I.
  pose proof (Z4 [] ix ltac:(constructor) I) as Q. cbn [app] in Q. rewrite Q. unfold bget. cbn [ascalar dat shp]. rewrite Rabs_R1, sqrt_1. ring.
Qed.
(** the two steps, with this generator *)
Lemma pop_outside v t0 w t s g : shp w = v ++ [1%nat] -> (t0 <= t /\ t < s) \/ (s < t /\ t <= t0) -> exists w', outside v t0 w t s g = (Ok (w, w'), tl g) /\ shp w' = v ++ [1%nat] /\ forall ix, inb (v ++ [1%nat]) ix -> dat w' ix = dat w ix + sqrt (Rabs (s - t)) * (hd 0 g + INR (nth 0 ix 0%nat)).
Proof.
  intros S H. destruct (outside_step pop mvpop 1 v PNone t0 pop_ok mvpop_ok (none_corr v) w t s g S H) as (x & g' & E & _ & w' & Ew & Sw & Hw). destruct (unit_pop v g) as (x' & E' & X). rewrite E in E'. injection E' as <- ->. exists w'. split; auto. split; auto. intros ix I. rewrite Hw, X by auto. auto.
Qed.
Lemma pop_inside v t0 w1 w2 t1 t2 s g : shp w1 = v ++ [1%nat] -> shp w2 = v ++ [1%nat] -> t0 <= t1 < s /\ s < t2 -> exists w', inside v t0 w1 w2 t1 t2 s g = (Ok (w1, Some w'), tl g) /\ shp w' = v ++ [1%nat] /\
  forall z, z = (t2 - s)/(t2 - t1) -> forall ix, inb (v ++ [1%nat]) ix -> dat w' ix = z * dat w1 ix + (1 - z) * dat w2 ix + sqrt (z * Rabs (s - t1)) * (hd 0 g + INR (nth 0 ix 0%nat)).
Proof.
  intros S1 S2 H. destruct (bridge_step pop mvpop (fun a => Ok a) 1 v PNone t0 pop_ok mvpop_ok (none_corr v) w1 w2 t1 t2 s g S1 S2 ltac:(left; lra)) as (x & g' & E & _ & w' & Ew & Sw & Hw). destruct (unit_pop v g) as (x' & E' & X). rewrite E in E'. injection E' as <- ->. exists w'.
  assert (nle t2 t0 = false) as L by (destruct (nle t2 t0) eqn:Q; auto; apply nle_R in Q; lra). split; [|split; auto].
  - unfold wiener_inside. rewrite L. unfold dbind. rewrite Ew. reflexivity.
  - intros z Ez ix I. rewrite (Hw z Ez ix I), X by auto. auto.
Qed.
Lemma pop_eval v t0 rtol s st w st' : ret v t0 rtol s st = (Ok w, st') -> shp w = v ++ [1%nat] -> exists y, W v t0 rtol (ascalar s) None st = (Ok y, st') /\ aeq y w.
Proof. apply eval_scalar. Qed.
Definition start (v : list nat) : arr R := mkArr (v ++ [1%nat]) (bget (ascalar 0)).
Lemma start_ok v (t0 : R) : true_new (fun w : arr R => w) (v ++ [1%nat]) t0 (ascalar 0) = Ok [(t0, start v)].
Proof. unfold true_new, broadcast_to. reflexivity. Qed.

(** the answer changes: with t0 = 1, a time before t0 within tolerance of it is answered z0 at first, and a new value is generated for it
    once a later time has been stored *)
Theorem C18_refuted : forall rtol, 0 < rtol < 1 -> exists s m0 g0 x st1 st2 y st3,
  true_new (fun w : arr R => w) [1%nat] 1 (ascalar 0) = Ok m0 /\ W [] 1 rtol (ascalar s) None (m0, g0) = (Ok x, st1) /\
  history (fun w => w) (outside [] 1) (inside [] 1) rtol [1%nat] nsub 0 st1 st2 /\ W [] 1 rtol (ascalar s) None st2 = (Ok y, st3) /\ dat x [0%nat] <> dat y [0%nat].
Proof.
  intros rtol Hr. exists (1 - rtol), [(1, start [])], [1; 1].
  (* first *)
  assert (C1 : isclose rtol (1 - rtol) 1 = true). { apply isclose_R. unfold close. rewrite Rabs_R1. replace (1 - rtol - 1) with (- rtol) by ring. rewrite Rabs_Ropp, Rabs_right; lra. }
  destruct (pop_eval [] 1 rtol (1 - rtol) ([(1, start [])], [1; 1]) (start []) ([(1, start [])], [1; 1])) as (x & Ex & Ax); [|reflexivity|].
  { rewrite (retrieve1_start _ _ _ _ 1 (start []) [] [] 1 (start [])); auto; [rewrite C1; auto|]. constructor; [simpl; lra|constructor]. }
  (* in between *)
  assert (C3 : isclose rtol 3 1 = false). { apply isclose_R_false. unfold close. rewrite Rabs_R1, Rabs_right; lra. }
  destruct (pop_outside [] 1 (start []) 1 3 [1; 1] eq_refl ltac:(left; lra)) as (w3 & E3 & S3 & H3).
  destruct (pop_eval [] 1 rtol 3 ([(1, start [])], [1; 1]) w3 ([(1, start []); (3, w3)], [1])) as (y3 & Ey3 & _); auto.
  { pose proof (retrieve1_end (fun w : arr R => w) (outside [] 1) (inside [] 1) rtol [] 1 (start []) 3 [1; 1]) as Q. cbn [app] in Q. rewrite Q by (constructor; [simpl; lra|constructor]). rewrite C3, E3. reflexivity. }
  (* last *)
  assert (C2 : isclose rtol (1 - rtol) 3 = false). { apply isclose_R_false. unfold close. rewrite (Rabs_right 3) by lra. rewrite Rabs_left1 by lra. lra. }
  destruct (pop_outside [] 1 (start []) 1 (1 - rtol) [1] eq_refl ltac:(right; lra)) as (w & E & S & H).
  destruct (pop_eval [] 1 rtol (1 - rtol) ([(1, start []); (3, w3)], [1]) w ([(1 - rtol, w); (1, start []); (3, w3)], [])) as (y & Ey & Ay); auto.
  { rewrite (retrieve1_start _ _ _ _ 1 (start []) [(3, w3)] [(1, start [])] 3 w3); auto; [rewrite C2, E; reflexivity|]. repeat (constructor; [simpl; lra|]). constructor. }
  exists x, ([(1, start [])], [1; 1]), ([(1, start []); (3, w3)], [1]), y, ([(1 - rtol, w); (1, start []); (3, w3)], []). split; [apply (start_ok [])|]. split; auto. split; [eapply h_call; [exact Ey3|constructor]|]. split; auto.
  assert (I : inb [1%nat] [0%nat]) by (constructor; [lia|constructor]). assert (Sx : shp x = [1%nat]) by apply Ax. assert (Sy : shp y = [1%nat]) by (destruct Ay as [-> _]; auto).
  destruct Ax as [_ Ax]. destruct Ay as [_ Ay]. rewrite Ax by (rewrite Sx; auto). rewrite Ay by (rewrite Sy; auto). rewrite H by auto. unfold start, bget. cbn. replace (1 - rtol - 1) with (- rtol) by ring. rewrite Rabs_Ropp, Rabs_right by lra. assert (0 < sqrt rtol) by (apply sqrt_lt_R0; lra). lra.
Qed.
(** a time below a stored time, within the tolerance, is not matched with it: the value is another one *)
Theorem C20_refuted : forall rtol, 0 < rtol < 1 -> exists s g0 m0 x1 st1 x2 st2,
  true_new (fun w : arr R => w) [1%nat] 0 (ascalar 0) = Ok m0 /\ W [] 0 rtol (ascalar 1) None (m0, g0) = (Ok x1, st1) /\
  close rtol s 1 /\ W [] 0 rtol (ascalar s) None st1 = (Ok x2, st2) /\ dat x1 [0%nat] <> dat x2 [0%nat].
Proof.
  intros rtol Hr. exists (1 - rtol), [1; 0], [(0, start [])].
  assert (C0 : forall s, 0 < s -> isclose rtol s 0 = false). { intros s Hs. apply isclose_R_false. unfold close. rewrite Rabs_R0, Rminus_0_r, Rabs_right; lra. }
  destruct (pop_outside [] 0 (start []) 0 1 [1; 0] eq_refl ltac:(left; lra)) as (w1 & E1 & S1 & H1).
  destruct (pop_eval [] 0 rtol 1 ([(0, start [])], [1; 0]) w1 ([(0, start []); (1, w1)], [0])) as (y1 & Ey1 & Ay1); auto.
  { pose proof (retrieve1_end (fun w : arr R => w) (outside [] 0) (inside [] 0) rtol [] 0 (start []) 1 [1; 0]) as Q. cbn [app] in Q. rewrite Q by (constructor; [simpl; lra|constructor]). rewrite C0, E1 by lra. reflexivity. }
  destruct (pop_inside [] 0 (start []) w1 0 1 (1 - rtol) [0] eq_refl S1 ltac:(lra)) as (w2 & E2 & S2 & H2).
  destruct (pop_eval [] 0 rtol (1 - rtol) ([(0, start []); (1, w1)], [0]) w2 ([(0, start []); (1 - rtol, w2); (1, w1)], [])) as (y2 & Ey2 & Ay2); auto.
  { pose proof (retrieve1_between (fun w : arr R => w) (outside [] 0) (inside [] 0) rtol [] 0 (start []) 1 w1 [] (1 - rtol) [0]) as Q. cbn [app] in Q. rewrite Q by (constructor; [simpl; lra|constructor]). rewrite C0, E2 by lra. reflexivity. }
  exists y1, ([(0, start []); (1, w1)], [0]), y2, ([(0, start []); (1 - rtol, w2); (1, w1)], []). split; [apply (start_ok [])|]. split; auto. split.
  { unfold close. rewrite Rabs_R1. replace (1 - rtol - 1) with (- rtol) by ring. rewrite Rabs_Ropp, Rabs_right; lra. }
  split; auto. assert (I : inb [1%nat] [0%nat]) by (constructor; [lia|constructor]). assert (Sx : shp y1 = [1%nat]) by (destruct Ay1 as [-> _]; auto). assert (Sy : shp y2 = [1%nat]) by (destruct Ay2 as [-> _]; auto).
  destruct Ay1 as [_ Ay1]. destruct Ay2 as [_ Ay2]. rewrite Ay1 by (rewrite Sx; auto). rewrite Ay2 by (rewrite Sy; auto). rewrite (H2 rtol) by (auto; field). rewrite H1 by auto. unfold start, bget. cbn. rewrite Rminus_0_r, Rabs_R1, sqrt_1. lra.
Qed.

(** with an array of times, an index selects times, not components *)
Theorem C62_array {Z B G} (getvalue : Z -> arr B) (new_outside : Z -> R -> R -> G -> res (Z * Z) * G) (new_inside : Z -> Z -> R -> R -> R -> G -> res (Z * option Z) * G) rtol sub d zs t n w k st x st1 :
  shp t = n :: w -> (k < n)%nat -> (0 < List.length w + List.length zs)%nat -> true_call getvalue new_outside new_inside rtol sub d zs t None st = (Ok x, st1) ->
  exists y, indexed_call getvalue new_outside new_inside rtol sub d zs [IInt (Z.of_nat k)] t None st = (Ok y, st1) /\ shp y = w ++ zs /\ forall ix, inb (w ++ zs) ix -> dat y ix = dat x (k :: ix).
Proof.
  intros St L Lz E. unfold indexed_call, dbind. rewrite E. unfold dres. assert (Sx : shp x = (n :: w) ++ zs).
  { unfold true_call, retrieve in E. apply dbind_state in E. destruct E as (o & st2 & _ & E). destruct o as [l|e]; [|destruct E; discriminate]. unfold dret in E. injection E as <- _. cbn [assembled shp]. rewrite St. auto. }
  rewrite Sx. cbn [List.length app]. rewrite app_length. destruct (Nat.ltb_spec 1 (S (List.length w + List.length zs))); [|lia]. unfold index_arr. rewrite Sx. cbn [app index_shape].
  assert (Nk : norm_index n (Z.of_nat k) = Some k). { apply norm_index_from_end. unfold from_end. destruct (Z.ltb_spec (Z.of_nat k) 0); [lia|]. split; lia. }
  rewrite Nk. replace (index_shape (w ++ zs) []) with (Ok (w ++ zs, fun ix : list nat => ix)) by (destruct (w ++ zs); reflexivity). cbv beta iota delta [rbind]. eexists. split; [reflexivity|]. auto.
Qed.
(** not the component that the index selects for scalar times, at each of the times *)
Theorem C62_refuted : exists t g0 m0 x y st1 st2, true_new (fun w : arr R => w) [2; 1]%nat 0 (ascalar 0) = Ok m0 /\ W [2%nat] 0 0 t None (m0, g0) = (Ok x, st1) /\
  indexed_call (fun w : arr R => w) (outside [2%nat] 0) (inside [2%nat] 0) 0 nsub 0 [2; 1]%nat [IInt 1] t None (m0, g0) = (Ok y, st2) /\
  shp x = [2; 2; 1]%nat /\ shp y = [2; 1]%nat /\ exists i, (i < 2)%nat /\ dat y [i; 0]%nat <> dat x [i; 1; 0]%nat.
Proof.
  set (t := vec [0; 1]). exists t, [1], [(0, start [2%nat])].
  destruct (W [2%nat] 0 0 t None ([(0, start [2%nat])], [1])) as [o st1] eqn:E.
  (* the evaluation at 0 and at 1 *)
  assert (C : isclose 0 1 0 = false) by (apply isclose_R_false; unfold close; rewrite Rabs_R0, Rminus_0_r, Rabs_R1; lra).
  assert (C0 : isclose 0 0 0 = true) by (apply isclose_R; unfold close; rewrite Rminus_0_r, Rabs_R0; lra).
  destruct (pop_outside [2%nat] 0 (start [2%nat]) 0 1 [1] eq_refl ltac:(left; lra)) as (w1 & E1 & S1 & H1).
  assert (R0 : ret [2%nat] 0 0 0 ([(0, start [2%nat])], [1]) = (Ok (start [2%nat]), ([(0, start [2%nat])], [1]))).
  { pose proof (retrieve1_end (fun w : arr R => w) (outside [2%nat] 0) (inside [2%nat] 0) 0 [] 0 (start [2%nat]) 0 [1]) as Q. cbn [app] in Q. rewrite Q by (constructor; [simpl; lra|constructor]). rewrite C0. reflexivity. }
  assert (R1 : ret [2%nat] 0 0 1 ([(0, start [2%nat])], [1]) = (Ok w1, ([(0, start [2%nat]); (1, w1)], []))).
  { pose proof (retrieve1_end (fun w : arr R => w) (outside [2%nat] 0) (inside [2%nat] 0) 0 [] 0 (start [2%nat]) 1 [1]) as Q. cbn [app] in Q. rewrite Q by (constructor; [simpl; lra|constructor]). rewrite C, E1. reflexivity. }
  assert (X : exists x, o = Ok x /\ shp x = [2; 2; 1]%nat /\ dat x [1; 0; 0]%nat = bget w1 [0; 0]%nat /\ dat x [0; 1; 0]%nat = 0).
  { unfold true_wiener, true_call, retrieve in E. change (ndindex (shp t)) with [[0%nat]; [1%nat]] in E. cbn [each] in E. change (dat t [0%nat]) with 0 in E. change (dat t [1%nat]) with 1 in E. unfold dbind at 1 2 3 in E. rewrite R0 in E. unfold dres at 1 in E. cbn [start] in E. unfold broadcast_to at 1 in E. cbn [shp] in E. rewrite can_refl in E. unfold dbind at 1 2 3 in E. rewrite R1 in E. unfold dres at 1 in E. unfold broadcast_to at 1 in E. rewrite S1, can_refl in E.
    unfold dbind, dret in E. injection E as <- <-. eexists. split; [reflexivity|]. split; [reflexivity|]. split; reflexivity. }
  destruct X as (x & -> & Sx & X1 & X0). destruct (C62_array (fun w : arr R => w) (outside [2%nat] 0) (inside [2%nat] 0) 0 nsub 0 [2; 1]%nat t 2%nat [] 1 _ _ _ eq_refl ltac:(lia) ltac:(simpl; lia) E) as (y & Ey & Sy & Hy).
  exists x, y, st1, st1. split; [apply (start_ok [2%nat])|]. split; auto. split; [exact Ey|]. split; auto. split; auto. exists 0%nat. split; auto. rewrite Hy by (repeat constructor). rewrite X1, X0. rewrite bget_self by (rewrite S1; repeat constructor). rewrite H1 by (repeat constructor). unfold start, bget. cbn. rewrite Rminus_0_r, Rabs_R1, sqrt_1. lra.
Qed.

(** *** examples: evaluations at 4, at 1, and at 4 again, of a source with t0 = 0 whose generator gives 1 and 2 *)
Section Examples.
Lemma dbind_eq {S A B} (c : S -> res A * S) (f : A -> S -> res B * S) st a st1 : c st = (Ok a, st1) -> dbind c f st = f a st1.
Proof. intro E. unfold dbind. rewrite E. auto. Qed.
Let m0 : list (R * arr R) := [(0, start [])].
Let I0 : inb [1%nat] [0%nat].
Proof. constructor; [lia|constructor]. Qed.
Lemma stored_1_4 : exists w1 w4 x4 x1, shp w1 = [1%nat] /\ shp w4 = [1%nat] /\ dat w4 [0%nat] = 2 /\ dat w1 [0%nat] = 1/2 + 2 * sqrt (3/4) /\ aeq x4 w4 /\ aeq x1 w1 /\
  W [] 0 0 (ascalar 4) None (m0, [1; 2]) = (Ok x4, ([(0, start []); (4, w4)], [2])) /\
  W [] 0 0 (ascalar 1) None ([(0, start []); (4, w4)], [2]) = (Ok x1, ([(0, start []); (1, w1); (4, w4)], [])).
Proof.
  assert (C0 : forall s, 0 < s -> isclose 0 s 0 = false). { intros s Hs. apply isclose_R_false. unfold close. rewrite Rabs_R0, Rminus_0_r, Rabs_right; lra. }
  destruct (pop_outside [] 0 (start []) 0 4 [1; 2] eq_refl ltac:(left; lra)) as (w4 & E4 & S4 & H4).
  destruct (pop_eval [] 0 0 4 (m0, [1; 2]) w4 ([(0, start []); (4, w4)], [2])) as (x4 & Ex4 & A4); auto.
  { pose proof (retrieve1_end (fun w : arr R => w) (outside [] 0) (inside [] 0) 0 [] 0 (start []) 4 [1; 2]) as Q. cbn [app] in Q. unfold m0. rewrite Q by (constructor; [simpl; lra|constructor]). rewrite C0, E4 by lra. reflexivity. }
  destruct (pop_inside [] 0 (start []) w4 0 4 1 [2] eq_refl S4 ltac:(lra)) as (w1 & E1 & S1 & H1).
  destruct (pop_eval [] 0 0 1 ([(0, start []); (4, w4)], [2]) w1 ([(0, start []); (1, w1); (4, w4)], [])) as (x1 & Ex1 & A1); auto.
  { pose proof (retrieve1_between (fun w : arr R => w) (outside [] 0) (inside [] 0) 0 [] 0 (start []) 4 w4 [] 1 [2]) as Q. cbn [app] in Q. rewrite Q by (constructor; [simpl; lra|constructor]). rewrite C0, E1 by lra. reflexivity. }
  assert (V4 : dat w4 [0%nat] = 2). { rewrite H4 by apply I0. unfold start, bget. cbn. replace (4 - 0) with (2 * 2) by ring. rewrite Rabs_right, sqrt_square by lra. ring. }
  exists w1, w4, x4, x1. do 3 (split; [auto|]). split; auto. rewrite (H1 (3/4)) by (try apply I0; field). rewrite V4. unfold start, bget. cbn. replace (1 - 0) with 1 by ring. rewrite Rabs_R1, Rmult_1_r. lra.
Qed.
Local Notation hist := (history (fun w : arr R => w) (outside [] 0) (inside [] 0) 0 [1%nat] nsub 0).
(** the value at 4 is still 2 once that at 1 has been generated, with no draw; nor are there any to come *)
Example C18_ex : exists x4 st1 x1 st2 y4, W [] 0 0 (ascalar 4) None (m0, [1; 2]) = (Ok x4, st1) /\ W [] 0 0 (ascalar 1) None st1 = (Ok x1, st2) /\ W [] 0 0 (ascalar 4) None st2 = (Ok y4, st2) /\
  dat x4 [0%nat] = 2 /\ dat y4 [0%nat] = 2 /\ map fst (fst st2) = [0; 1; 4] /\ snd st2 = [].
Proof.
  destruct stored_1_4 as (w1 & w4 & x4 & x1 & S1 & S4 & V4 & V1 & A4 & A1 & E4 & E1).
  destruct (C18_wiener pop mvpop (fun a => Ok a) 1 [] PNone 0 0 (ascalar 0) m0 [1; 2] m0 [1; 2] 4 x4 _ _ pop_ok (Rle_refl 0) ltac:(left; auto) (start_ok [] 0) (h_nil _ _ _ _ _ _ _ _) E4 (h_call _ _ _ _ _ _ _ _ _ _ _ _ _ E1 (h_nil _ _ _ _ _ _ _ _))) as (y4 & Ey & Ay).
  assert (X4 : dat x4 [0%nat] = 2). { destruct A4 as [Sx A4]. rewrite A4, V4 by (rewrite Sx, S4; apply I0). auto. }
  exists x4, ([(0, start []); (4, w4)], [2]), x1, ([(0, start []); (1, w1); (4, w4)], []), y4. split; [exact E4|]. split; [exact E1|]. split; [exact Ey|]. split; auto. split; [|split; reflexivity].
  destruct Ay as [Sy Ay]. destruct A4 as [Sx _]. rewrite Ay by (rewrite Sy, Sx, S4; apply I0). exact X4.
Qed.
(** the increment from 1, of length 3 *)
Example C19_ex : exists m x, In 1 (map fst m) /\ hist (m0, [1; 2]) (m, []) /\ W [] 0 0 (ascalar 1) (Some (ascalar 3)) (m, []) = (Ok x, (m, [])) /\ dat x [0%nat] = 2 - (1/2 + 2 * sqrt (3/4)).
Proof.
  destruct stored_1_4 as (w1 & w4 & x4 & x1 & S1 & S4 & V4 & V1 & A4 & A1 & E4 & E1). set (m := [(0, start []); (1, w1); (4, w4)]).
  assert (Sm : sorted_times m). { unfold sorted_times, m. cbn [map fst]. repeat (constructor; [|repeat (constructor; try lra)]). constructor. }
  destruct (C20_exact_match (fun w : arr R => w) (outside [] 0) (inside [] 0) 0 [1%nat] nsub 0 m 4 w4 [] eq_refl Sm ltac:(unfold m; simpl; auto) S4) as (y4 & Ey4 & B4).
  destruct (C20_exact_match (fun w : arr R => w) (outside [] 0) (inside [] 0) 0 [1%nat] nsub 0 m 1 w1 [] eq_refl Sm ltac:(unfold m; simpl; auto) S1) as (y1 & Ey1 & B1).
  assert (T4 : shp y4 = [1%nat]) by (destruct B4 as [-> _]; auto). assert (T1 : shp y1 = [1%nat]) by (destruct B1 as [-> _]; auto).
  destruct (aop_same nsub y4 y1 [1%nat] T4 T1) as (x & Ex & Sx & Hx). exists m, x. split; [unfold m; simpl; auto|]. split; [eapply h_call; [exact E4|]; eapply h_call; [exact E1|]; apply h_nil|]. split.
  - unfold true_wiener, true_call. unfold dbind at 1, dres at 1. change (broadcast2 (ascalar 1) (ascalar 3)) with (Ok (mkArr [] (bget (ascalar (1 : R))), mkArr [] (bget (ascalar (3 : R))))). cbv beta iota.
    unfold dbind at 1, dres at 1. unfold aop at 1. cbn [shp bshape rev bshr option_map]. cbv beta iota.
    assert (Y4 : retrieve (fun w : arr R => w) (outside [] 0) (inside [] 0) 0 0 ([] ++ [1%nat]) (mkArr [] (fun ix => nadd (bget (mkArr [] (bget (ascalar (1 : R)))) ix) (bget (mkArr [] (bget (ascalar (3 : R)))) ix))) (m, []) = (Ok y4, (m, []))).
    { rewrite <- Ey4. unfold true_call, retrieve. cbn [shp ascalar ndindex each dat]. replace (nadd (bget (mkArr [] (bget (ascalar 1))) []) (bget (mkArr [] (bget (ascalar 3))) [])) with 4 by (unfold bget; cbn; lra). reflexivity. }
    refine (eq_trans (dbind_eq _ _ _ _ _ Y4) _). refine (eq_trans (dbind_eq _ _ _ _ _ Ey1) _). unfold dres. rewrite Ex. reflexivity.
  - rewrite Hx by apply I0. destruct B4 as [_ B4]. destruct B1 as [_ B1]. rewrite B4, B1, V4, V1 by (try rewrite T4; try rewrite T1; apply I0). reflexivity.
Qed.
(** the coefficients of these values, of the two draws, have the covariances of Brownian motion *)
Example C21_ex : let c1 := fun i => nth i [1/2; sqrt (3/4)] 0 in let c4 := fun i => nth i [2; 0] 0 in
  lincomb 2 c1 (fun i => nth i [1; 2] 0) = 1/2 + 2 * sqrt (3/4) /\ lincomb 2 c1 c1 = brownian_cov 0 1 1 /\ lincomb 2 c1 c4 = brownian_cov 0 1 4 /\ lincomb 2 c4 c4 = brownian_cov 0 4 4 /\ brownian_cov 0 4 4 = 4 /\ brownian_cov 0 (-2) (-1) = 1 /\ brownian_cov 0 (-2) 5 = 0.
Proof.
  unfold lincomb, brownian_cov. cbn. assert (Q := sqrt_sqrt (3/4) ltac:(lra)). unfold Rmin, Rmax. repeat match goal with |- context [Rle_dec ?a ?b] => destruct (Rle_dec a b); try (exfalso; lra) end. repeat split; lra.
Qed.
End Examples.
Print Assumptions C18_wiener.
Print Assumptions C18_poisson.
Print Assumptions C18_cpoisson.
Print Assumptions C18_same_value.
Print Assumptions C18_calm.
Print Assumptions C18_initial.
Print Assumptions C18_increasing.
Print Assumptions C18_kept.
Print Assumptions C19_elements.
Print Assumptions C19_difference.
Print Assumptions C19_additive.
Print Assumptions C19_repeated.
Print Assumptions C20_above.
Print Assumptions C20_below.
Print Assumptions C20_before.
Print Assumptions C20_exact_match.
Print Assumptions C20_exact_new.
Print Assumptions C21_brownian.
Print Assumptions C21_covariance.
Print Assumptions C62_shared.
Print Assumptions C62_generates.
Print Assumptions C18_refuted.
Print Assumptions C20_refuted.
Print Assumptions C62_array.
Print Assumptions C62_refuted.
