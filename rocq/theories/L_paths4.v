(** Lemmas about the simulation engine: the whole call. *)
From Coq Require Import List ZArith Bool Lia Sorting.Sorted.
From Verif Require Import Base BaseOrd M_paths S_paths L_ord L_paths L_paths2 L_paths3.
Import ListNotations.

Lemma norm_index_spec n i p : norm_index n i = Some p <-> start_index n i p.
Proof.
  unfold norm_index, start_index.
  destruct ((0 <=? i) && (i <? Z.of_nat n))%Z eqn:E1.
  - apply andb_true_iff in E1. destruct E1 as [A B].
    apply Z.leb_le in A. apply Z.ltb_lt in B.
    split; [intro H; inversion H; subst; left; lia|].
    intro H. f_equal. lia.
  - destruct ((- Z.of_nat n <=? i) && (i <? 0))%Z eqn:E2.
    + apply andb_true_iff in E2. destruct E2 as [A B].
      apply Z.leb_le in A. apply Z.ltb_lt in B.
      split; [intro H; inversion H; subst; right; lia|].
      intro H. f_equal. lia.
    + split; [discriminate|]. intro H. exfalso.
      rewrite !andb_false_iff, !Z.leb_gt, !Z.ltb_ge in *. lia.
Qed.

Lemma start_index_lt n i p : start_index n i p -> p < n.
Proof. unfold start_index; lia. Qed.

Lemma nth_split_len {A} (l : list A) p d : p < length l ->
  l = firstn p l ++ nth p l d :: skipn (p + 1) l.
Proof.
  revert p; induction l as [|a l IH]; intros p H; simpl in H; [lia|].
  destruct p; simpl; [rewrite ?skipn_O; auto|]. f_equal. apply IH. lia.
Qed.

Section L.
Context {T : Type} {TO : TOrd T} {TL : TOrdLaws T} {S X Y : Type}.
Notation event := (event T X Y).
Notation st_t := (st_t T S Y).

Lemma last_write_in i (l : list (nat * T * X * Y)) : forall d,
  (exists w, In w l /\ st_idx w = i) ->
  exists w, In w l /\ st_idx w = i /\ last_write i l d = Some (st_val w).
Proof.
  induction l as [|w l IH]; intros d [w0 [H E]]; [destruct H|]. simpl.
  destruct (in_dec Nat.eq_dec i (map st_idx l)) as [HI|HI].
  - apply in_map_iff in HI. destruct HI as [w1 [E1 H1]].
    destruct (IH (if st_idx w =? i then Some (st_val w) else d)) as (w2 & H2 & E2 & L2); eauto.
  - assert (NW : forall d, last_write i l d = d).
    { clear - HI. induction l as [|v l IH]; intro d; simpl in *; auto.
      rewrite IH by tauto. destruct (Nat.eqb_spec (st_idx v) i); tauto. }
    destruct H as [->|H].
    + exists w0. rewrite NW, E, Nat.eqb_refl. auto.
    + exfalso. apply HI. rewrite <- E. apply in_map; auto.
Qed.

Lemma last_write_notin i (l : list (nat * T * X * Y)) : forall d,
  ~ In i (map st_idx l) -> last_write i l d = d.
Proof.
  induction l as [|v l IH]; intros d HI; simpl in *; auto.
  rewrite IH by tauto. destruct (Nat.eqb_spec (st_idx v) i); tauto.
Qed.

(** the call, on valid input, is two passes *)
Section Call.
Variable cb : callbacks T S X Y.
Variable K : nat.
Variable i0 : Z.
Variable gi : bool.
Variable pace_fn : list T -> list T.
Variable fuel : nat.
Variable s_init : S.
Variable timeline : list T.
Notation len := (length timeline).

Definition backb := negb (i0 =? 0)%Z.
Definition forthb := ((i0 =? 0) || negb ((i0 =? -1) || (i0 =? Z.of_nat len - 1)))%Z.

Lemma backb_spec : backb = true <-> goes_back i0.
Proof using. unfold backb, goes_back. destruct (Z.eqb_spec i0 0) as [E|E]; simpl; split; intro H; congruence. Qed.
Lemma forthb_spec : forthb = true <-> goes_forth len i0.
Proof using.
  unfold forthb, goes_forth.
  destruct (Z.eqb_spec i0 0), (Z.eqb_spec i0 (-1)), (Z.eqb_spec i0 (Z.of_nat len - 1)); simpl;
    split; intro H; try discriminate H; try reflexivity; try lia.
Qed.

Definition init_st (t0 : T) : st_t :=
  mkSt s_init (repeat None len)
    (if gi then Some (mkInfo t0 (hd t0 timeline) (last timeline t0) 0 0) else None).

Definition two_pass (p0 : nat) (t1 : list T) (t0 : T) (t2 l1 : list T) (s : T) (l2 : list T) :=
  wbind (if backb then generate_paths cb K true (t0 :: rev t1) (s :: rev l1) (fun i => p0 - i) fuel (init_st t0)
         else wret (init_st t0))
        (fun st1 => if forthb then generate_paths cb K false (t0 :: t2) (s :: l2) (fun i => p0 + i) fuel st1
                    else wret st1).

End Call.

Theorem call_split cb K i0 gi pace_fn fuel s_init timeline p0 :
  let n := length timeline in
  2 <= K -> valid_timeline timeline -> start_index n i0 p0 ->
  K - 1 <= length (merge_steps timeline (pace_fn timeline)) ->
  exists t1 t0 t2 l1 s l2,
    timeline = t1 ++ t0 :: t2 /\ length t1 = p0 /\
    merge_steps timeline (pace_fn timeline) = l1 ++ s :: l2 /\ teqb s t0 = true /\
    good_pass true (t0 :: rev t1) (s :: rev l1) /\ good_pass false (t0 :: t2) (s :: l2) /\
    grid_spec true timeline (pace_fn timeline) t0 (s :: rev l1) /\
    grid_spec false timeline (pace_fn timeline) t0 (s :: l2) /\
    call cb K i0 gi pace_fn fuel s_init [n] timeline = two_pass cb K i0 gi fuel s_init timeline p0 t1 t0 t2 l1 s l2.
Proof.
  intros n HK (NE & NT & ST) SI HL. unfold n in *. clear n.
  assert (Hp := start_index_lt _ _ _ SI).
  destruct timeline as [|a tt]; [congruence|].
  pose (t0 := nth p0 (a :: tt) a).
  pose (g := merge_steps (a :: tt) (pace_fn (a :: tt))).
  assert (SPL := nth_split_len (a :: tt) p0 a Hp). fold t0 in SPL.
  assert (MI := merge_InT tt (pace_fn (a :: tt)) a NT ST).
  assert (MS := merge_sorted tt (pace_fn (a :: tt)) a NT).
  assert (MN := merge_grid_num tt (pace_fn (a :: tt)) a NT).
  fold g in MI, MS, MN.
  assert (N0 : isnum t0).
  { rewrite Forall_forall in NT. apply NT. unfold t0. apply nth_In; auto. }
  assert (IT0 : InT t0 g).
  { apply MI. left. apply InT_In; auto. apply nth_In; auto. }
  destruct (where_eq_sorted g t0 0 MS IT0) as (l1 & s & l2 & EG & Es & WE).
  exists (firstn p0 (a :: tt)), t0, (skipn (p0 + 1) (a :: tt)), l1, s, l2.
  assert (LF : length (firstn p0 (a :: tt)) = p0) by (rewrite firstn_length; simpl in *; lia).
  assert (MT : forall t, In t (a :: tt) -> InT t g).
  { intros t Ht. apply MI. left. apply InT_In; auto. rewrite Forall_forall in NT; auto. }
  assert (MLAST : forall d, InT (last g d) (a :: tt)).
  { intro d. apply (merge_last tt (pace_fn (a :: tt)) a NT ST d). }
  destruct (merge_hd tt (pace_fn (a :: tt)) a NT ST) as (h & r & EH & IH). fold g in EH.
  set (t1 := firstn p0 (a :: tt)) in *. set (t2 := skipn (p0 + 1) (a :: tt)) in *.
  (* forward *)
  destruct (good_split false l1 l2 t1 t2 s t0) as [GF GFI]; auto;
    try (rewrite <- EG); try (rewrite <- SPL); auto.
  (* backward *)
  assert (RG : rev g = rev l2 ++ s :: rev l1).
  { rewrite EG, rev_app_distr. simpl. rewrite <- app_assoc. reflexivity. }
  assert (RT : rev (a :: tt) = rev t2 ++ t0 :: rev t1).
  { rewrite SPL at 1. rewrite rev_app_distr. simpl. rewrite <- app_assoc. reflexivity. }
  destruct (good_split true (rev l2) (rev l1) (rev t2) (rev t1) s t0) as [GB GBI]; auto;
    try (rewrite <- RG); try (rewrite <- RT); auto.
  { apply (SS_rev false); auto. }
  { apply Forall_rev; auto. }
  { apply (SS_rev false); auto. }
  { apply Forall_rev; auto. }
  { intros t Ht. apply InT_rev. apply MT. apply in_rev; auto. }
  { intro d. apply InT_rev. rewrite EH. simpl. rewrite last_last. auto. }
  split; [first [exact SPL | reflexivity]|]. split; [exact LF|]. split; [first [exact EG | reflexivity]|]. split; [exact Es|].
  split; [exact GB|]. split; [exact GF|].
  split; [|split].
  - split; [apply GB|]. intro t. rewrite GBI, <- RG, InT_rev, MI. tauto.
  - split; [apply GF|]. intro t. rewrite GFI, <- EG, MI. tauto.
  - unfold call. replace (K <? 2) with false by (symmetry; apply Nat.ltb_ge; auto).
    cbv zeta. rewrite Nat.eqb_refl. cbn [negb].
    replace (array_equal (a :: tt) (unique (a :: tt))) with true
      by (symmetry; apply array_equal_unique; auto).
    cbn [negb].
    apply norm_index_spec in SI. rewrite SI.
    fold g. fold t0.
    replace (length g <? K - 1) with false by (symmetry; apply Nat.ltb_ge; auto).
    rewrite WE. simpl (0 + length l1).
    assert (F1 : rev (firstn (p0 + 1) (a :: tt)) = t0 :: rev t1).
    { rewrite SPL. rewrite firstn_app, LF. replace (p0 + 1 - p0) with 1 by lia.
      rewrite firstn_all2 by lia. simpl. rewrite rev_app_distr. reflexivity. }
    assert (F2 : skipn p0 (a :: tt) = t0 :: t2).
    { rewrite SPL. rewrite skipn_app, LF, Nat.sub_diag. rewrite skipn_all2 by lia. reflexivity. }
    assert (F3 : rev (firstn (length l1 + 1) g) = s :: rev l1).
    { rewrite EG. rewrite firstn_app. replace (length l1 + 1 - length l1) with 1 by lia.
      rewrite firstn_all2 by lia. simpl. rewrite rev_app_distr. reflexivity. }
    assert (F4 : skipn (length l1) g = s :: l2).
    { rewrite EG. rewrite skipn_app, Nat.sub_diag, skipn_all. reflexivity. }
    rewrite F1, F2, F3, F4. unfold two_pass, init_st, backb, forthb.
    assert (QQ : last (a :: tt) t0 = last (a :: tt) a) by apply last_cons_any.
    rewrite QQ. reflexivity.
Qed.
End L.
