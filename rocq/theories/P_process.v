(** Properties of the process class: construction (C33), arithmetic (C37), indexing (C38), reshaping (C39). *)
From Coq Require Import String List Arith Bool Lia ZArith.
From Verif Require Import Base BaseNum BaseArr BaseNd BaseIdx M_mc M_process S_mc S_process L_nd L_process.
Import ListNotations.
Local Open Scope list_scope.

Section Process.
Context {V : Type} {NV : Num V}.
Implicit Types (p q : proc V) (t x v c : arr V).

(** *** C33 *)
Lemma process_from_ok (t : list V) x p : process_from (V := V) t x = Ok p <-> p = mkProc t x Linear /\ exists r, shp x = List.length t :: r.
Proof.
  unfold process_from. destruct (list_eq_dec Nat.eq_dec [List.length t] (firstn 1 (shp x))) as [E|E].
  - destruct (shp x) as [|n r]; [discriminate|]. simpl in E. injection E as ->. split; [intro H; injection H as <-; eauto|intros [-> _]; auto].
  - split; [discriminate|]. intros [_ [r E2]]. rewrite E2 in E. simpl in E. contradiction.
Qed.
Lemma process_from_total (t : list V) x : (exists r, shp x = List.length t :: r) -> process_from (V := V) t x = Ok (mkProc t x Linear).
Proof. intro H. apply process_from_ok. auto. Qed.
Lemma times_length t : List.length (times t) = match shp t with [] => 1 | n :: _ => n end.
Proof. unfold times. destruct (shp t); auto. rewrite map_length, seq_length. auto. Qed.

(** construction succeeds exactly for a scalar or one-dimensional, non empty timeline and exactly one of x, v, c, with
    the first axis of x, or of v as a process with one path, as long as the timeline *)
Theorem C33_succeeds t ox ov oc : (exists p, process_new t ox ov oc = Ok p) <->
  (shp t = [] \/ exists n, n <> 0 /\ shp t = [n]) /\
  ((exists x r, ox = Some x /\ ov = None /\ oc = None /\ shp x = List.length (times t) :: r) \/
   (exists v, ox = None /\ ov = Some v /\ oc = None /\ ((exists r, shp v = List.length (times t) :: r) \/ (shp v = [] /\ List.length (times t) = 1))) \/
   (exists c, ox = None /\ ov = None /\ oc = Some c)).
Proof.
  unfold process_new. fold (times t).
  assert (T : (1 <? List.length (shp t)) || (size (shp t) =? 0) = false <-> shp t = [] \/ exists n, n <> 0 /\ shp t = [n]).
  { destruct (shp t) as [|n [|m s]]; simpl.
    - split; auto.
    - rewrite Nat.mul_1_r. destruct (Nat.eqb_spec n 0); split; try discriminate; eauto.
      intros [|(k & K1 & K2)]; [discriminate|]. injection K2 as <-. contradiction.
    - split; [discriminate|]. intros [|(k & K1 & K2)]; discriminate. }
  destruct ((1 <? List.length (shp t)) || (size (shp t) =? 0)) eqn:E.
  { split; [intros [p H]; discriminate|]. intros [H _]. apply T in H. discriminate. }
  fold (times t). split.
  - intros [p H]. split; [tauto|]. destruct ox as [x|], ov as [v|], oc as [c|]; simpl in H; try discriminate.
    + left. apply process_from_ok in H. destruct H as [_ [r H]]. eauto 8.
    + right; left. apply process_from_ok in H. destruct H as [_ [r H]]. exists v. do 3 (split; [auto|]). simpl in H.
      destruct (shp v) as [|n s]; [right; injection H; auto|]. left. simpl in H. injection H as <- _. eauto.
    + right; right. eauto.
  - intros [_ [(x & r & -> & -> & -> & H)|[(v & -> & -> & -> & H)|(c & -> & -> & ->)]]]; cbn [given Nat.add Nat.eqb negb].
    + rewrite process_from_total by eauto. eauto.
    + rewrite process_from_total; [eauto|]. simpl. destruct H as [[r H]|[H1 H2]]; [rewrite H; simpl; eauto|rewrite H1, H2; simpl; eauto].
    + rewrite process_from_total by (simpl; eauto). eauto.
Qed.

(** all failures are ValueErrors *)
Theorem C33_error t ox ov oc e : process_new t ox ov oc = Err e -> e = ValueError.
Proof.
  unfold process_new, process_from. destruct (_ || _); [congruence|].
  destruct ox, ov, oc; cbn [given Nat.add Nat.eqb negb]; try congruence; match goal with |- context [list_eq_dec ?a ?b ?c] => destruct (list_eq_dec a b c) end; congruence.
Qed.

(** what is constructed *)
Theorem C33_x t x p : process_new t (Some x) None None = Ok p -> pt p = times t /\ px p = x /\ pk p = Linear /\ wf p.
Proof.
  intro H. assert (S := proj1 (C33_succeeds t (Some x) None None) (ex_intro _ p H)). unfold process_new in H. fold (times t) in H.
  destruct (_ || _); [discriminate|]. simpl in H. apply process_from_ok in H. destruct H as [-> [r H]]. repeat split; auto; [|eexists; eauto].
  cbn [pt]. intro E. assert (L := times_length t). rewrite E in L. destruct S as [[S|(n & N & S)] _]; rewrite S in L; simpl in L; lia.
Qed.
Theorem C33_v t v p : process_new t None (Some v) None = Ok p ->
  pt p = times t /\ wf p /\ paths p = 1 /\ shp (px p) = shp v ++ [1] /\ forall ix, inb (shp v) ix -> dat (px p) (ix ++ [0]) = dat v ix.
Proof.
  intro H. assert (S := proj1 (C33_succeeds t None (Some v) None) (ex_intro _ p H)). unfold process_new in H. fold (times t) in H.
  destruct (_ || _); [discriminate|]. simpl in H. apply process_from_ok in H. destruct H as [-> [r H]]. split; [auto|]. split; [split; [|eexists; eauto]|].
  - cbn [pt]. intro E. assert (L := times_length t). rewrite E in L. destruct S as [[S|(n & N & S)] _]; rewrite S in L; simpl in L; lia.
  - unfold paths. simpl. split; [apply last_snoc|]. split; auto. intros ix _. f_equal. apply removelast_snoc.
Qed.
Theorem C33_c t c p : process_new t None None (Some c) = Ok p ->
  pt p = times t /\ wf p /\ paths p = 1 /\ shp (px p) = List.length (times t) :: shp c ++ [1] /\
  forall i ix, i < List.length (times t) -> inb (shp c) ix -> dat (px p) (i :: ix ++ [0]) = dat c ix.
Proof.
  intro H. assert (S := proj1 (C33_succeeds t None None (Some c)) (ex_intro _ p H)). unfold process_new in H. fold (times t) in H.
  destruct (_ || _); [discriminate|]. simpl in H. apply process_from_ok in H. destruct H as [-> [r H]]. split; [auto|]. split; [split; [|eexists; eauto]|].
  - cbn [pt]. intro E. assert (L := times_length t). rewrite E in L. destruct S as [[S|(n & N & S)] _]; rewrite S in L; simpl in L; lia.
  - unfold paths. cbn [px shp]. split; [change (List.length (times t) :: shp c ++ [1]) with ((List.length (times t) :: shp c) ++ [1]); apply last_snoc|].
    split; auto. intros i ix _ _. cbn [px dat tl]. f_equal. apply removelast_snoc.
Qed.
(** the axes of the values, if there are at least two *)
Theorem C33_shape p : wf p -> 2 <= List.length (shp (px p)) -> shp (px p) = List.length (pt p) :: vshape p ++ [paths p].
Proof.
  intros [_ [r E]] L. unfold vshape, paths. rewrite E in *. destruct (exists_last (l := r)) as (v & n & ->); [intros ->; simpl in L; lia|].
  change (List.length (pt p) :: v ++ [n]) with ((List.length (pt p) :: v) ++ [n]). rewrite removelast_snoc, last_snoc. reflexivity.
Qed.
End Process.
Print Assumptions C33_error.

(** a one-dimensional x is accepted, and the process has no paths axis; v too, if 0-dimensional *)
Theorem C33_one_axis_refuted : exists (t x : arr Z) p,
  process_new t (Some x) None None = Ok p /\ shp (px p) = [3] /\ ~ exists vs n, shp (px p) = List.length (pt p) :: vs ++ [n].
Proof.
  exists (mkArr [3] (fun ix => Z.of_nat (hd 0 ix))), (mkArr [3] (fun _ => 5%Z)). eexists. split; [reflexivity|]. split; [reflexivity|].
  intros (vs & n & H). simpl in H. destruct vs; discriminate.
Qed.
Print Assumptions C33_one_axis_refuted.
Example C33_ex : process_new (mkArr [2] (fun ix => Z.of_nat (hd 0 ix))) None None (Some (mkArr [3] (fun ix => Z.of_nat (7 + hd 0 ix)))) =
  Ok (mkProc [0; 1]%Z (mkArr [2; 3; 1] (fun ix => Z.of_nat (7 + hd 0 (removelast (tl ix))))) Linear).
Proof. reflexivity. Qed.
Example C33_ex_both : process_new (ascalar 0%Z) (Some (ascalar 1%Z)) None (Some (ascalar 1%Z)) = Err ValueError.
Proof. reflexivity. Qed.
Example C33_ex_mismatch : process_new (mkArr [2] (fun _ => 0%Z)) (Some (mkArr [3; 1] (fun _ => 1%Z))) None None = Err ValueError.
Proof. reflexivity. Qed.
Example C33_ex_2d : process_new (mkArr [1; 1] (fun _ => 0%Z)) None None (Some (ascalar 1%Z)) = Err ValueError.
Proof. reflexivity. Qed.
Print Assumptions C33_succeeds.
Print Assumptions C33_x.
Print Assumptions C33_v.
Print Assumptions C33_c.
Print Assumptions C33_shape.

(** *** C37 *)
Section Ufunc.
Context {V : Type} {NV : Num V}.
Variable veqb : V -> V -> bool.
Hypothesis veqb_eq : forall a b, veqb a b = true <-> a = b.
Implicit Types (p q : proc V).

Lemma same_timeline_eq (t u : list V) : same_timeline veqb t u = true <-> t = u.
Proof.
  unfold same_timeline. rewrite andb_true_iff, Nat.eqb_eq. revert u; induction t as [|x t IH]; intros [|y u]; simpl; split; try tauto; try (intros [? ?]; discriminate); try discriminate.
  - intros [H1 H2]. apply andb_true_iff in H2. destruct H2 as [H2 H3]. apply veqb_eq in H2. f_equal; auto. apply IH. auto.
  - intro H. injection H as -> ->. split; auto. apply andb_true_iff. split; [apply veqb_eq; auto|]. apply IH. auto.
Qed.
Lemma forallb_agree r : forall s, (List.length r =? List.length s) && forallb (fun d => (fst d =? snd d) || ((fst d =? 1) || (snd d =? 1))) (combine r s) = true <-> agree r s.
Proof.
  intro s. rewrite andb_true_iff, Nat.eqb_eq. revert s; induction r as [|a r IH]; intros [|b s]; simpl; split; try (intros [? ?]; discriminate).
  - intros; constructor.
  - auto.
  - intro H; inversion H.
  - intro H; inversion H.
  - intros [H1 H2]. apply andb_true_iff in H2. destruct H2 as [H2 H3]. constructor; [|apply IH; auto]. rewrite !orb_true_iff, !Nat.eqb_eq in H2. tauto.
  - intro H. inversion H as [|? ? ? ? H1 H2]; subst. apply IH in H2. destruct H2 as [H2 H3]. split; auto. apply andb_true_iff. split; auto. rewrite !orb_true_iff, !Nat.eqb_eq. tauto.
Qed.
Lemma is_compatible_spec p q : is_compatible veqb p q = true <-> (pt p = pt q \/ List.length (pt p) = 1 \/ List.length (pt q) = 1) /\ agree (comp p) (comp q).
Proof. unfold is_compatible. rewrite andb_true_iff, !orb_true_iff, forallb_agree, same_timeline_eq, !Nat.eqb_eq. reflexivity. Qed.
Lemma agree_refl (r : list nat) : agree r r.
Proof. induction r; constructor; auto. Qed.
Lemma agree_sym (r s : list nat) : agree r s -> agree s r.
Proof. induction 1; constructor; auto. destruct H as [|[|]]; auto. Qed.

(** two processes: success exactly for equal or constant timelines and shapes that agree up to singleton axes *)
Theorem C37_binary_succeeds f p q : wf p -> wf q ->
  ((exists r, ufunc veqb f [OProc p; OProc q] = Ok r) <->
   (pt p = pt q \/ List.length (pt p) = 1 \/ List.length (pt q) = 1) /\ agree (comp p) (comp q)).
Proof.
  intros [P0 [rp P]] [Q0 [rq Q]]. assert (CP : comp p = rp) by (unfold comp; rewrite P; auto). assert (CQ : comp q = rq) by (unfold comp; rewrite Q; auto).
  unfold ufunc. cbn [procs map values_of bshape_all]. rewrite bshape_nil_r. cbn [forallb]. rewrite andb_true_r.
  assert (C1 : is_compatible veqb p p = true) by (apply is_compatible_spec; split; auto; apply agree_refl). rewrite C1. cbn [andb].
  split.
  - intros [r H]. destruct (bshape _ _); [|discriminate]. destruct (is_compatible veqb q p) eqn:C; [|discriminate]. apply is_compatible_spec in C.
    destruct C as [C1' C2]. split; [|apply agree_sym; auto]. destruct C1' as [|[|]]; auto.
  - intros [H1 H2]. rewrite P, Q. assert (A : agree (List.length (pt p) :: rp) (List.length (pt q) :: rq)).
    { constructor; [|rewrite <- CP, <- CQ; auto]. destruct H1 as [->|[|]]; auto. }
    rewrite (proj2 (bshape_agree _ _ (agree_length _ _ A)) A).
    replace (is_compatible veqb q p) with true by (symmetry; apply is_compatible_spec; split; [destruct H1 as [|[|]]; auto|apply agree_sym; auto]).
    rewrite process_from_total; [eauto|]. cbn [shp]. unfold wide. cbn [combine map fst snd first_varying]. eexists. f_equal.
    destruct (Nat.ltb_spec 1 (List.length (pt q))), (Nat.eqb_spec (List.length (pt p)) 1); auto.
    + destruct H1 as [->|[|]]; auto; lia.
    + assert (List.length (pt q) <> 0) by (destruct (pt q); [contradiction|discriminate]). lia.
Qed.
(** the result: the common non constant timeline, the shape, and every entry *)
Theorem C37_binary f p q r : wf p -> wf q -> ufunc veqb f [OProc p; OProc q] = Ok r ->
  wf r /\ (forall t, (t = pt p \/ t = pt q) -> 1 < List.length t -> pt r = t) /\
  (List.length (pt p) = 1 -> List.length (pt q) = 1 -> pt r = pt p) /\
  comp r = wide (comp p) (comp q) /\
  forall ix, inb (shp (px r)) ix -> dat (px r) ix = f [dat (px p) (pick (shp (px p)) ix); dat (px q) (pick (shp (px q)) ix)].
Proof.
  intros W1 W2 H. assert (S := proj1 (C37_binary_succeeds f p q W1 W2) (ex_intro _ r H)). destruct W1 as [P0 [rp P]], W2 as [Q0 [rq Q]]. destruct S as [S1 S2].
  assert (CP : comp p = rp) by (unfold comp; rewrite P; auto). assert (CQ : comp q = rq) by (unfold comp; rewrite Q; auto).
  unfold ufunc in H. cbn [procs map values_of bshape_all] in H. rewrite bshape_nil_r in H.
  assert (A : agree (shp (px p)) (shp (px q))).
  { rewrite P, Q. constructor; [|rewrite <- CP, <- CQ; auto]. destruct S1 as [->|[|]]; auto. }
  rewrite (proj2 (bshape_agree _ _ (agree_length _ _ A)) A) in H. destruct (forallb _ _); [|discriminate].
  apply process_from_ok in H. destruct H as [-> [r' H]]. cbn [px pt shp first_varying] in *.
  assert (QL : List.length (pt q) <> 0) by (destruct (pt q); [contradiction|discriminate]).
  assert (L : 1 <? List.length (pt q) = true \/ (1 <? List.length (pt q) = false /\ List.length (pt q) = 1)) by (destruct (Nat.ltb_spec 1 (List.length (pt q))); [left|right]; auto; split; auto; lia).
  assert (T0 : (if 1 <? List.length (pt q) then pt q else pt p) <> []) by (destruct (1 <? _); auto).
  split; [split; cbn; [auto|eauto]|]. split; [|split; [|split]].
  - intros t Ht Lt. destruct L as [L|[-> L]].
    + rewrite L. apply Nat.ltb_lt in L. destruct Ht as [->| ->]; auto. destruct S1 as [|[|S1]]; auto; lia.
    + destruct Ht as [->| ->]; auto. lia.
  - intros _ Q1. rewrite Q1. reflexivity.
  - unfold comp. cbn [px shp]. rewrite P, Q. reflexivity.
  - intros ix Hix. cbn [map dat]. unfold bget. cbn [values_of]. assert (LI : List.length ix = List.length (shp (px p))).
    { rewrite (inb_length _ _ Hix). unfold wide. rewrite map_length, combine_length, <- (agree_length _ _ A). lia. }
    rewrite !bidx_pick; auto. rewrite LI. apply agree_length. auto.
Qed.
(** a function of one process *)
Theorem C37_unary f p : wf p -> exists r, ufunc veqb f [OProc p] = Ok r /\ pt r = pt p /\ shp (px r) = shp (px p) /\
  forall ix, inb (shp (px p)) ix -> dat (px r) ix = f [dat (px p) ix].
Proof.
  intros [P0 [rp P]]. unfold ufunc. cbn [procs map values_of bshape_all first_varying]. rewrite bshape_nil_r. cbn [forallb].
  replace (is_compatible veqb p p) with true by (symmetry; apply is_compatible_spec; split; auto; apply agree_refl). cbn [andb].
  rewrite process_from_total by (cbn [shp]; eauto). eexists. split; [reflexivity|]. split; [auto|]. split; [auto|]. intros ix H. cbn. rewrite bget_self; auto.
Qed.
(** a process and an array that can be broadcast to its shape, on either side *)
Theorem C37_array f p a : wf p -> can (shp a) (shp (px p)) = true ->
  (exists r, ufunc veqb f [OProc p; OArr a] = Ok r /\ pt r = pt p /\ shp (px r) = shp (px p) /\
    forall ix, inb (shp (px p)) ix -> dat (px r) ix = f [dat (px p) ix; bget a ix]) /\
  (exists r, ufunc veqb f [OArr a; OProc p] = Ok r /\ pt r = pt p /\ shp (px r) = shp (px p) /\
    forall ix, inb (shp (px p)) ix -> dat (px r) ix = f [bget a ix; dat (px p) ix]).
Proof.
  intros [P0 [rp P]] C. unfold ufunc. cbn [procs map values_of bshape_all first_varying]. rewrite !bshape_nil_r. rewrite (bshape_can_r _ _ C), (bshape_can_l _ _ C). cbn [forallb].
  replace (is_compatible veqb p p) with true by (symmetry; apply is_compatible_spec; split; auto; apply agree_refl). cbn [andb].
  rewrite !process_from_total by (cbn [shp]; eauto).
  split; (eexists; split; [reflexivity|]; split; [auto|]; split; [auto|]); intros ix H; cbn; rewrite (bget_self (px p)); auto.
Qed.
(** an array with another number of time points is refused *)
Theorem C37_array_refused f p a s : wf p -> bshape (shp (px p)) (shp a) = Some s -> firstn 1 s <> [List.length (pt p)] ->
  ufunc veqb f [OProc p; OArr a] = Err ValueError.
Proof.
  intros [P0 [rp P]] B N. unfold ufunc. cbn [procs map values_of bshape_all first_varying]. rewrite !bshape_nil_r, B.
  destruct (forallb _ _); auto. unfold process_from. cbn [shp]. destruct (list_eq_dec _ _ _); auto. congruence.
Qed.
(** any number of operands: on success every process is compatible with the first one, whose timeline, if it is not
    constant, is the result's *)
Theorem C37_first f l self others r : procs l = self :: others -> (forall q, In q (self :: others) -> wf q) -> ufunc veqb f l = Ok r ->
  (forall q, In q others -> (pt q = pt self \/ List.length (pt q) = 1 \/ List.length (pt self) = 1) /\ agree (comp q) (comp self)) /\
  (1 < List.length (pt self) -> pt r = pt self) /\ wf r.
Proof.
  intros E W H. unfold ufunc in H. rewrite E in H. destruct (bshape_all _) as [s|]; [|discriminate]. destruct (forallb _ _) eqn:F; [|discriminate].
  rewrite forallb_forall in F. assert (F' : forall q, In q others -> (pt q = pt self \/ List.length (pt q) = 1 \/ List.length (pt self) = 1) /\ agree (comp q) (comp self)).
  { intros q Hq. apply is_compatible_spec, F. right; auto. }
  apply process_from_ok in H. destruct H as [-> [r' H]]. split; auto.
  assert (FV : forall l0, (forall q, In q l0 -> In q others) -> first_varying (pt self) l0 = pt self \/ exists q, In q l0 /\ first_varying (pt self) l0 = pt q /\ 1 < List.length (pt q)).
  { induction l0 as [|q l0 IH]; intro I; simpl; auto. destruct (Nat.ltb_spec 1 (List.length (pt q))); [right; exists q; simpl; auto|].
    destruct IH as [IH|(q' & I1 & I2)]; [intros; apply I; simpl; auto|auto|right; exists q'; simpl; auto]. }
  split.
  - intro L. cbn [pt]. destruct (FV others) as [|(q & I & E1 & E2)]; auto. rewrite E1. destruct (F' q I) as [[|[|]] _]; auto; lia.
  - split; cbn; [|eauto]. destruct (FV others) as [->|(q & I & E1 & E2)]; auto; [apply W; left; auto|]. rewrite E1. destruct (pt q); [simpl in E2; lia|discriminate].
Qed.
End Ufunc.
Print Assumptions C37_array_refused.
Definition zproc (t : list Z) (x : Z) : proc Z := mkProc t (mkArr [List.length t; 1] (fun ix => (x + Z.of_nat (hd 0%nat ix))%Z)) Linear.
(** three operands, the first of which is constant: different timelines of the same length are accepted *)
Theorem C37_ternary_refuted : exists (f : list Z -> Z) p q1 q2 r, pt q1 <> pt q2 /\ 1 < List.length (pt q1) /\ 1 < List.length (pt q2) /\
  ufunc Z.eqb f [OProc p; OProc q1; OProc q2] = Ok r /\ dat (px r) [1; 0] = f [dat (px p) [0; 0]; dat (px q1) [1; 0]; dat (px q2) [1; 0]].
Proof.
  exists (fun l => fold_left Z.add l 0%Z). exists (zproc [0]%Z 5), (zproc [0; 1]%Z 10), (zproc [0; 7]%Z 20).
  eexists. split; [discriminate|]. split; [simpl; lia|]. split; [simpl; lia|]. split; reflexivity.
Qed.
Example C37_ex : match ufunc Z.eqb (fun l => fold_left Z.add l 0%Z) [OProc (zproc [0]%Z 5); OProc (zproc [3; 4]%Z 10)] with
  Ok r => pt r = [3; 4]%Z /\ dat (px r) [0; 0] = 15%Z /\ dat (px r) [1; 0] = 16%Z | Err _ => False end.
Proof. vm_compute. auto. Qed.
Example C37_ex_different : ufunc Z.eqb (fun l => fold_left Z.add l 0%Z) [OProc (zproc [3; 5]%Z 5); OProc (zproc [3; 4]%Z 10)] = Err ValueError.
Proof. vm_compute. auto. Qed.
Print Assumptions C37_binary_succeeds.
Print Assumptions C37_binary.
Print Assumptions C37_unary.
Print Assumptions C37_array.
Print Assumptions C37_first.
Print Assumptions C37_ternary_refuted.

(** *** C38 *)
Section Index.
Context {V : Type} {NV : Num V}.
Implicit Types (p q : proc V).

Lemma process_slice_ok (t : list V) x q : process_slice t x = Ok q <-> t <> [] /\ q = mkProc t x Linear /\ exists r, shp x = List.length t :: r.
Proof. unfold process_slice. destruct t; [split; [discriminate|intros [[] _]; auto]|]. rewrite process_from_ok. split; [intros; split; [discriminate|auto]|tauto]. Qed.
Lemma key_ok_length s : forall key, key_ok s key -> List.length key <= List.length s.
Proof. induction s as [|d s IH]; intros [|k key] H; simpl; try lia; [destruct k; destruct H|]. destruct k; destruct H as [_ H]; specialize (IH _ H); lia. Qed.
Lemma index_arr_ok (x : arr V) key : key_ok (shp x) key -> exists y, index_arr x key = Ok y /\
  forall r ix jx, picks (shp x) key r ix jx -> shp y = r /\ dat y ix = dat x jx.
Proof.
  intro K. destruct (index_shape_ok _ _ K) as (r & f & E & P & _). unfold index_arr. rewrite E. eexists. split; [reflexivity|].
  intros r' ix jx H. destruct (P _ _ _ H) as [-> <-]. auto.
Qed.
Lemma index_arr_err (x : arr V) key : ~ key_ok (shp x) key -> exists e, index_arr x key = Err e.
Proof. intro K. destruct (index_shape_err _ _ K) as (e & E). unfold index_arr. rewrite E. eexists; reflexivity. Qed.

(** time: p['t', k] for an integer or a slice with non zero step *)
Definition keeps (k : idx) : Prop := match k with ISlice _ _ (Some 0%Z) => False | _ => True end.
Lemma int_to_slice_selected n k : keeps k -> exists a b c, int_to_slice k = ISlice a b c /\ c <> Some 0%Z /\ sliced n a b c = selected n k.
Proof.
  intro K. destruct k as [i|a b c].
  - assert (H := int_slice n i). cbn [int_to_slice] in *. destruct (i =? -1)%Z; do 3 eexists; (split; [reflexivity|split; [discriminate|exact H]]).
  - exists a, b, c. split; [reflexivity|]. split; [|reflexivity]. intros ->. exact K.
Qed.
Theorem C38_time p k : wf p -> keeps k -> let l := selected (List.length (pt p)) k in
  (l = [] -> getitem p "t" [k] = Err ValueError) /\
  (l <> [] -> exists q, getitem p "t" [k] = Ok q /\ pt q = map (fun j => nth j (pt p) nzero) l /\ comp q = comp p /\ wf q /\
     forall j ix, j < List.length l -> inb (comp p) ix -> dat (px q) (j :: ix) = dat (px p) (nth j l 0 :: ix)).
Proof.
  intros [P0 [rp P]] K l. destruct (int_to_slice_selected (List.length (pt p)) k K) as (a & b & c & E1 & E2 & E3). fold l in E3.
  assert (GI : getitem p "t" [k] = (t <- slice_list nzero (pt p) a b c ;; x <- index_arr (px p) [ISlice a b c] ;; process_slice t x)%res).
  { unfold getitem. cbn [String.eqb Ascii.eqb Bool.eqb orb List.length Nat.ltb Nat.leb map]. rewrite E1. reflexivity. }
  rewrite GI. unfold slice_list. rewrite (slice_positions_sliced _ a b c E2), E3. cbv beta iota delta [rbind].
  assert (IX : index_arr (px p) [ISlice a b c] = Ok (mkArr (List.length l :: rp) (fun ix => dat (px p) (match ix with [] => [] | j :: ix' => nth j l 0 :: ix' end)))).
  { unfold index_arr. rewrite P. cbn [index_shape]. rewrite (slice_positions_sliced _ a b c E2), E3. destruct rp; reflexivity. }
  rewrite IX. split.
  - intros ->. reflexivity.
  - intro N. exists (mkProc (map (fun j => nth j (pt p) nzero) l) (mkArr (List.length l :: rp) (fun ix => dat (px p) (match ix with [] => [] | j :: ix' => nth j l 0 :: ix' end))) Linear).
    split; [apply process_slice_ok; split; [destruct l; [contradiction|discriminate]|split; [reflexivity|]]; exists rp; cbn [shp]; rewrite map_length; reflexivity|].
    split; [reflexivity|]. split; [unfold comp; cbn [px shp tl]; rewrite P; reflexivity|]. split; [split; [destruct l; [contradiction|discriminate]|cbn [px pt shp]; rewrite map_length; eauto]|].
    intros j ix J I. reflexivity.
Qed.
(** in particular, integer time indices out of range raise ValueError, and a single time point is kept as an axis *)
Theorem C38_time_int p i : wf p ->
  ((0 <= from_end (List.length (pt p)) i < Z.of_nat (List.length (pt p)))%Z ->
     exists q, getitem p "t" [IInt i] = Ok q /\ pt q = [nth (Z.to_nat (from_end (List.length (pt p)) i)) (pt p) nzero] /\ shp (px q) = 1 :: comp p /\
       forall ix, inb (comp p) ix -> dat (px q) (0 :: ix) = dat (px p) (Z.to_nat (from_end (List.length (pt p)) i) :: ix)) /\
  (~ (0 <= from_end (List.length (pt p)) i < Z.of_nat (List.length (pt p)))%Z -> getitem p "t" [IInt i] = Err ValueError).
Proof.
  intros W. destruct (C38_time p (IInt i) W I) as [H1 H2]. cbn [selected] in *. split.
  - intro H. replace ((0 <=? from_end (List.length (pt p)) i)%Z && (from_end (List.length (pt p)) i <? Z.of_nat (List.length (pt p)))%Z) with true in *.
    2:{ symmetry. rewrite andb_true_iff, Z.leb_le, Z.ltb_lt. auto. }
    destruct H2 as (q & Q1 & Q2 & Q3 & [_ [r Q4]] & Q5); [discriminate|]. exists q. split; auto. split; auto. split; [|intros ix Hix; apply (Q5 0); simpl; auto].
    rewrite Q4, Q2. cbn [map List.length]. f_equal. unfold comp in Q3. rewrite Q4 in Q3. exact Q3.
  - intro H. apply H1. destruct (Z.leb_spec 0 (from_end (List.length (pt p)) i)), (Z.ltb_spec (from_end (List.length (pt p)) i) (Z.of_nat (List.length (pt p)))); simpl; auto. exfalso. auto.
Qed.
(** paths: p['p', k] *)
Lemma picks_repeat_full s n k l jx ix j : picks [n] k l [j] jx -> inb s ix -> picks (s ++ [n]) (repeat full (List.length s) ++ k) (s ++ l) (ix ++ [j]) (ix ++ jx).
Proof.
  intro P. revert ix. induction s as [|d s IH]; intros ix I; inversion I; subst; simpl; auto.
  match goal with |- picks _ _ _ (?i :: _) _ => assert (Q : picks (d :: s ++ [n]) (full :: repeat full (List.length s) ++ k) (List.length (sliced d None None None) :: s ++ l) (i :: l0 ++ [j]) (nth i (sliced d None None None) 0 :: l0 ++ jx)) by (constructor; [discriminate|auto]) end.
  rewrite length_sliced_full, nth_sliced_full in Q by auto. exact Q.
Qed.
Lemma key_ok_repeat_full s n k : key_ok [n] k -> key_ok (s ++ [n]) (repeat full (List.length s) ++ k).
Proof. intro K. induction s; simpl; auto. split; [discriminate|auto]. Qed.
Theorem C38_paths p k s n : wf p -> keeps k -> shp (px p) = s ++ [n] -> s <> [] ->
  exists q, getitem p "p" [k] = Ok q /\ pt q = pt p /\ wf q /\ shp (px q) = s ++ [List.length (selected n k)] /\
    forall ix j, inb s ix -> j < List.length (selected n k) -> dat (px q) (ix ++ [j]) = dat (px p) (ix ++ [nth j (selected n k) 0]).
Proof.
  intros [P0 [rp P]] K E N. destruct (int_to_slice_selected n k K) as (a & b & c & E1 & E2 & E3). rewrite <- E3.
  assert (GI : getitem p "p" [k] = (x <- index_arr (px p) (repeat full (List.length s) ++ [ISlice a b c]) ;; process_slice (pt p) x)%res).
  { unfold getitem. cbn [String.eqb Ascii.eqb Bool.eqb orb List.length Nat.ltb Nat.leb map]. rewrite E1, E, app_length. cbn [List.length]. rewrite Nat.add_sub. reflexivity. }
  rewrite GI. assert (KO : key_ok (shp (px p)) (repeat full (List.length s) ++ [ISlice a b c])) by (rewrite E; apply key_ok_repeat_full; split; [auto|exact I]).
  unfold index_arr. destruct (index_shape_ok _ _ KO) as (r & f & F1 & F2 & F3). rewrite F1. cbv beta iota delta [rbind].
  (* the shape *)
  assert (SH : r = s ++ [List.length (sliced n a b c)]).
  { clear F2 F3. rewrite E in F1. assert (G : forall s0, exists f0, index_shape (s0 ++ [n]) (repeat full (List.length s0) ++ [ISlice a b c]) = Ok (s0 ++ [List.length (sliced n a b c)], f0)).
    { induction s0 as [|d s0 [f0 IH]]; cbn [app repeat List.length].
      - cbn [index_shape]. rewrite (slice_positions_sliced _ a b c E2). eexists; reflexivity.
      - change (index_shape (d :: s0 ++ [n]) (full :: repeat full (List.length s0) ++ [ISlice a b c])) with
          (l <- slice_positions d None None None ;; ' (r, f) <- index_shape (s0 ++ [n]) (repeat full (List.length s0) ++ [ISlice a b c]) ;;
           Ok (List.length l :: r, fun ix => match ix with [] => [] | j :: ix' => nth j l 0 :: f ix' end))%res.
        rewrite slice_positions_sliced by discriminate. cbv beta iota delta [rbind]. rewrite IH. rewrite length_sliced_full. eexists; reflexivity. }
    destruct (G s) as [f0 G0]. rewrite G0 in F1. injection F1 as <- _. reflexivity. }
  subst r. exists (mkProc (pt p) (mkArr (s ++ [List.length (sliced n a b c)]) (fun ix => dat (px p) (f ix))) Linear).
  assert (S1 : exists r, s ++ [List.length (sliced n a b c)] = List.length (pt p) :: r).
  { rewrite E in P. destruct s as [|d s]; [contradiction|]. injection P as -> _. simpl. eauto. }
  split; [apply process_slice_ok; auto|]. split; [reflexivity|]. split; [split; auto|]. split; [reflexivity|].
  intros ix j I J. cbn [px dat]. f_equal. rewrite E in F2.
  assert (Q : picks (s ++ [n]) (repeat full (List.length s) ++ [ISlice a b c]) (s ++ [List.length (sliced n a b c)]) (ix ++ [j]) (ix ++ [nth j (sliced n a b c) 0])).
  { apply picks_repeat_full; auto. constructor; auto. constructor. }
  destruct (F2 _ _ _ Q) as [_ ->]. reflexivity.
Qed.
(** integer path indices out of range give no paths *)
Theorem C38_paths_out_of_range p i s n : wf p -> shp (px p) = s ++ [n] -> s <> [] -> ~ (0 <= from_end n i < Z.of_nat n)%Z ->
  exists q, getitem p "p" [IInt i] = Ok q /\ paths q = 0.
Proof.
  intros W E N O. destruct (C38_paths p (IInt i) s n W I E N) as (q & Q1 & _ & _ & Q2 & _). exists q. split; auto. unfold paths. rewrite Q2, last_snoc. cbn [selected].
  destruct (Z.leb_spec 0 (from_end n i)), (Z.ltb_spec (from_end n i) (Z.of_nat n)); simpl; auto. exfalso. auto.
Qed.
(** values: p['v', k1, ..., kh] succeeds exactly if there are not more keys than axes of the values, integers are in range, steps not 0 *)
Theorem C38_values p key v n : wf p -> shp (px p) = List.length (pt p) :: v ++ [n] ->
  (~ key_ok v key -> exists e, getitem p "v" key = Err e) /\
  (key_ok v key -> exists q r, getitem p "v" key = Ok q /\ pt q = pt p /\ wf q /\ shp (px q) = List.length (pt p) :: r ++ [n] /\
    (forall r' ix jx, picks v key r' ix jx -> r' = r) /\
    forall i ix jx j, i < List.length (pt p) -> j < n -> inb r ix -> picks v key r ix jx -> dat (px q) (i :: ix ++ [j]) = dat (px p) (i :: jx ++ [j])).
Proof.
  intros [P0 _] P. assert (GI : getitem p "v" key = (x <- index_arr (px p) (full :: key ++ [full]) ;; process_slice (pt p) x)%res) by reflexivity. rewrite GI. split.
  - intro K. destruct (index_arr_err (px p) (full :: key ++ [full])) as [e ->]; [|eexists; reflexivity]. rewrite P. intros [_ H]. apply K. apply (key_ok_snoc v key n). auto.
  - intro K. assert (K' : key_ok (shp (px p)) (full :: key ++ [full])) by (rewrite P; split; [discriminate|apply (key_ok_snoc v key n); auto]).
    destruct (index_shape_ok v key K) as (r & f0 & E0 & R0 & Q0). destruct (index_shape_ok _ _ K') as (r1 & f & E1 & F2 & _).
    assert (SH : r1 = List.length (pt p) :: r ++ [n]).
    { clear F2 Q0 R0 GI. rewrite P in E1.
      change (index_shape (List.length (pt p) :: v ++ [n]) (full :: key ++ [full])) with
          (l <- slice_positions (List.length (pt p)) None None None ;; ' (r, f) <- index_shape (v ++ [n]) (key ++ [full]) ;;
           Ok (List.length l :: r, fun ix => match ix with [] => [] | j :: ix' => nth j l 0 :: f ix' end))%res in E1.
      rewrite slice_positions_sliced in E1 by discriminate. cbv beta iota delta [rbind] in E1. destruct (index_shape (v ++ [n]) (key ++ [full])) as [[r2 f2]|] eqn:E2; [|discriminate].
      rewrite length_sliced_full in E1. injection E1 as <- _. f_equal. clear K K' P P0. revert key r f0 r2 f2 E0 E2.
      induction v as [|d v IH]; intros [|k key] r f0 r2 f2 E0 E2.
      - cbn [app index_shape full] in *. rewrite slice_positions_sliced in E2 by discriminate. cbv beta iota delta [rbind] in E2. rewrite length_sliced_full in E2. injection E0 as <- _. injection E2 as <- _. reflexivity.
      - destruct k; discriminate.
      - change (index_shape ((d :: v) ++ [n]) ([] ++ [full])) with (l <- slice_positions d None None None ;; ' (r, f) <- index_shape (v ++ [n]) [] ;;
           Ok (List.length l :: r, fun ix => match ix with [] => [] | j :: ix' => nth j l 0 :: f ix' end))%res in E2.
        rewrite slice_positions_sliced in E2 by discriminate. cbv beta iota delta [rbind] in E2. replace (index_shape (v ++ [n]) []) with (Ok (v ++ [n], fun ix : list nat => ix)) in E2 by (destruct v; reflexivity).
        rewrite length_sliced_full in E2. cbn [index_shape] in E0. injection E0 as <- _. injection E2 as <- _. reflexivity.
      - cbn [app] in E2. destruct k as [i|a b c]; cbn [index_shape] in E0, E2.
        + destruct (norm_index d i); [|discriminate]. destruct (index_shape v key) as [[r3 f3]|] eqn:G1; [|discriminate]. destruct (index_shape (v ++ [n]) (key ++ [full])) as [[r4 f4]|] eqn:G2; [|discriminate].
          injection E0 as <- _. injection E2 as <- _. eauto.
        + destruct (slice_positions d a b c) as [l|]; [|discriminate]. cbv beta iota delta [rbind] in E0, E2. destruct (index_shape v key) as [[r3 f3]|] eqn:G1; [|discriminate]. destruct (index_shape (v ++ [n]) (key ++ [full])) as [[r4 f4]|] eqn:G2; [|discriminate].
          injection E0 as <- _. injection E2 as <- _. simpl. f_equal. eauto. }
    subst r1. unfold index_arr. rewrite E1. cbv beta iota delta [rbind].
    exists (mkProc (pt p) (mkArr (List.length (pt p) :: r ++ [n]) (fun ix => dat (px p) (f ix))) Linear), r.
    split; [apply process_slice_ok; split; [auto|split; [reflexivity|exists (r ++ [n]); reflexivity]]|]. split; [auto|]. split; [split; [auto|simpl; eauto]|]. split; [auto|]. split; [intros r' ix jx PK; apply R0 in PK; tauto|].
    intros i ix jx j I J R PK. cbn [px dat]. f_equal. rewrite P in F2.
    assert (Q : picks (List.length (pt p) :: v ++ [n]) (full :: key ++ [full]) (List.length (sliced (List.length (pt p)) None None None) :: r ++ [n]) (i :: ix ++ [j]) (nth i (sliced (List.length (pt p)) None None None) 0 :: jx ++ [j])).
    { constructor; [discriminate|]. apply picks_full_snoc; auto. apply key_ok_length. auto. }
    rewrite length_sliced_full, nth_sliced_full in Q by auto. destruct (F2 _ _ _ Q) as [_ ->]. reflexivity.
Qed.
(** an integer removes its axis, a slice keeps it *)
Theorem C38_value_int p i d v n : wf p -> shp (px p) = List.length (pt p) :: d :: v ++ [n] -> (0 <= from_end d i < Z.of_nat d)%Z ->
  exists q, getitem p "v" [IInt i] = Ok q /\ pt q = pt p /\ shp (px q) = List.length (pt p) :: v ++ [n] /\
    forall j ix k, j < List.length (pt p) -> k < n -> inb v ix -> dat (px q) (j :: ix ++ [k]) = dat (px p) (j :: Z.to_nat (from_end d i) :: ix ++ [k]).
Proof.
  intros W P H. destruct (C38_values p [IInt i] (d :: v) n W P) as [_ G]. destruct G as (q & r & Q1 & Q2 & Q3 & Q4 & R & Q5); [simpl; split; auto; destruct v; exact I|].
  assert (v = r) by (apply (R v [] (Z.to_nat (from_end d i) :: [])); constructor; auto; constructor).
  subst r. exists q. split; auto. split; auto. split; auto. intros j ix k J K IX. apply (Q5 j ix (Z.to_nat (from_end d i) :: ix) k); auto. constructor; auto. constructor.
Qed.
(** no key, more than one key, unknown modes *)
Theorem C38_other p key mode : wf p ->
  (exists q, getitem p "t" [] = Ok q /\ pt q = pt p /\ px q = px p) /\ (exists q, getitem p "p" [] = Ok q /\ pt q = pt p /\ aeq (px q) (px p)) /\
  (1 < List.length key -> getitem p "t" key = Err AssertionError /\ getitem p "p" key = Err AssertionError) /\
  (mode <> "v"%string -> mode <> "t"%string -> mode <> "p"%string -> getitem p mode key = Err IndexError).
Proof.
  intros [P0 [r P]]. split; [|split; [|split]].
  - unfold getitem. cbn. unfold index_arr. replace (index_shape (shp (px p)) []) with (Ok (shp (px p), fun ix : list nat => ix)) by (destruct (shp (px p)); reflexivity). cbv beta iota delta [rbind].
    exists (mkProc (pt p) (px p) Linear). split; [|auto]. apply process_slice_ok. split; auto. split; [|simpl; rewrite P; eauto]. destruct (px p); reflexivity.
  - unfold getitem. cbn. unfold index_arr. replace (index_shape (shp (px p)) []) with (Ok (shp (px p), fun ix : list nat => ix)) by (destruct (shp (px p)); reflexivity). cbv beta iota delta [rbind].
    exists (mkProc (pt p) (px p) Linear). split; [|split; [auto|split; auto]]. apply process_slice_ok. split; auto. split; [|simpl; rewrite P; eauto]. destruct (px p); reflexivity.
  - intro L. unfold getitem. cbn [String.eqb Ascii.eqb Bool.eqb orb]. apply Nat.ltb_lt in L. rewrite L. auto.
  - intros N1 N2 N3. unfold getitem. apply String.eqb_neq in N1, N2, N3. rewrite N1, N2, N3. reflexivity.
Qed.
End Index.
Definition zp3 : proc Z := mkProc [10; 20; 30]%Z (mkArr [3; 2; 4] (fun ix => match ix with [i; j; k] => Z.of_nat (100*i + 10*j + k) | _ => 0%Z end)) Linear.
Example C38_ex_t : match getitem zp3 "t" [IInt (-1)] with Ok q => pt q = [30]%Z /\ shp (px q) = [1; 2; 4] /\ dat (px q) [0; 1; 3] = 213%Z | Err _ => False end.
Proof. vm_compute. auto. Qed.
Example C38_ex_t_rev : match getitem zp3 "t" [ISlice None None (Some (-2)%Z)] with Ok q => pt q = [30; 10]%Z /\ shp (px q) = [2; 2; 4] /\ dat (px q) [1; 1; 3] = 13%Z | Err _ => False end.
Proof. vm_compute. auto. Qed.
Example C38_ex_t_out : getitem zp3 "t" [IInt 3] = Err ValueError.
Proof. reflexivity. Qed.
Example C38_ex_p_out : match getitem zp3 "p" [IInt 4] with Ok q => pt q = [10; 20; 30]%Z /\ shp (px q) = [3; 2; 0] | Err _ => False end.
Proof. vm_compute. auto. Qed.
Example C38_ex_v : match getitem zp3 "v" [IInt (-1)] with Ok q => shp (px q) = [3; 4] /\ dat (px q) [2; 3] = 213%Z | Err _ => False end.
Proof. vm_compute. auto. Qed.
Example C38_ex_v_many : getitem zp3 "v" [IInt 0; IInt 0] = Err IndexError.
Proof. reflexivity. Qed.
Example C38_ex_wf : wf zp3 /\ keeps (IInt (-1)) /\ key_ok [2] [IInt (-1)].
Proof. split; [split; [discriminate|simpl; eauto]|]. simpl. unfold from_end. simpl. split; auto. split; auto; lia. Qed.
Print Assumptions C38_time.
Print Assumptions C38_time_int.
Print Assumptions C38_paths.
Print Assumptions C38_paths_out_of_range.
Print Assumptions C38_values.
Print Assumptions C38_value_int.
Print Assumptions C38_other.

(** *** C39 *)
Section Shapeas.
Context {V : Type} {NV : Num V}.
Implicit Types (p q : proc V).

(** more axes than the values have, or as many: axes of length one are put in front *)
Theorem C39_insert p v vs n : wf p -> shp (px p) = List.length (pt p) :: vs ++ [n] -> List.length vs <= List.length v ->
  let k := List.length v - List.length vs in
  exists q, shapeas p v = Ok q /\ pt q = pt p /\ wf q /\ shp (px q) = List.length (pt p) :: (repeat 1 k ++ vs) ++ [n] /\
    forall i ix j, i < List.length (pt p) -> inb vs ix -> j < n -> dat (px q) (i :: (repeat 0 k ++ ix) ++ [j]) = dat (px p) (i :: ix ++ [j]).
Proof.
  intros [P0 _] P L k. unfold shapeas. rewrite P. cbn [List.length]. rewrite app_length. cbn [List.length firstn tl].
  assert (R : forall s, s = [List.length (pt p)] ++ repeat 1 k ++ vs ++ [n] ->
     exists q, (x <- reshape (px p) s ;; process_slice (pt p) x)%res = Ok q /\ pt q = pt p /\ wf q /\ shp (px q) = List.length (pt p) :: (repeat 1 k ++ vs) ++ [n] /\
    forall i ix j, i < List.length (pt p) -> inb vs ix -> j < n -> dat (px q) (i :: (repeat 0 k ++ ix) ++ [j]) = dat (px p) (i :: ix ++ [j])).
  { intros s ->. destruct (reshape_insert (px p) [List.length (pt p)] k (vs ++ [n]) P) as (y & Y1 & Y2 & Y3). rewrite Y1. cbv beta iota delta [rbind].
    exists (mkProc (pt p) y Linear). assert (E : exists r, shp y = List.length (pt p) :: r) by (rewrite Y2; simpl; eauto).
    split; [apply process_slice_ok; split; [auto|split; [reflexivity|exact E]]|]. split; [auto|]. split; [split; auto|]. split; [cbn [px]; rewrite Y2, <- app_assoc; reflexivity|].
    intros i ix j I1 I2 J. cbn [px]. rewrite <- app_assoc. apply (Y3 [i] (ix ++ [j])); [repeat constructor; auto|apply inb_snoc; auto]. }
  destruct (Nat.ltb_spec (S (List.length vs + 1)) (List.length v + 2)) as [L1|L1].
  - apply R. cbn [app]. do 3 f_equal. unfold k. lia.
  - assert (E : List.length vs = List.length v) by lia. replace (List.length v + 2 <? S (List.length vs + 1)) with false by (symmetry; apply Nat.ltb_ge; lia). cbn [andb].
    apply R. replace (S (List.length vs + 1) - (List.length v + 2)) with 0 by lia. replace k with 0 by (unfold k; lia). reflexivity.
Qed.
(** fewer axes: possible exactly if the first axes have length one *)
Lemma ones_eq l : forallb (Nat.eqb 1) l = true <-> l = repeat 1 (List.length l).
Proof. induction l as [|x l IH]; cbn [forallb repeat List.length]; [tauto|]. rewrite andb_true_iff, Nat.eqb_eq, IH. split; [intros [<- H]; f_equal; auto|intro H; injection H; auto]. Qed.
Theorem C39_remove p v vs n : wf p -> shp (px p) = List.length (pt p) :: vs ++ [n] -> List.length v < List.length vs ->
  let k := List.length vs - List.length v in
  ((~ exists r, vs = repeat 1 k ++ r) -> shapeas p v = Err ValueError) /\
  forall r, vs = repeat 1 k ++ r ->
  exists q, shapeas p v = Ok q /\ pt q = pt p /\ wf q /\ shp (px q) = List.length (pt p) :: r ++ [n] /\ List.length r = List.length v /\
    forall i ix j, i < List.length (pt p) -> inb r ix -> j < n -> dat (px q) (i :: ix ++ [j]) = dat (px p) (i :: (repeat 0 k ++ ix) ++ [j]).
Proof.
  intros [P0 _] P L k. unfold shapeas. rewrite P. cbn [List.length]. rewrite app_length. cbn [List.length firstn tl].
  replace (S (List.length vs + 1) <? List.length v + 2) with false by (symmetry; apply Nat.ltb_ge; lia).
  replace (List.length v + 2 <? S (List.length vs + 1)) with true by (symmetry; apply Nat.ltb_lt; lia). cbn [andb].
  replace (S (List.length vs + 1) - (List.length v + 2)) with k by (unfold k; lia).
  assert (F : firstn k (vs ++ [n]) = firstn k vs) by (rewrite firstn_app; replace (k - List.length vs) with 0 by (unfold k; lia); simpl; apply app_nil_r).
  rewrite F. assert (LF : List.length (firstn k vs) = k) by (rewrite firstn_length; unfold k; lia). split.
  - intro N. destruct (forallb (Nat.eqb 1) (firstn k vs)) eqn:E; [|reflexivity]. exfalso. apply N. apply ones_eq in E. rewrite LF in E. exists (skipn k vs). rewrite <- E. symmetry. apply firstn_skipn.
  - intros r E. assert (FV : firstn k vs = repeat 1 k) by (rewrite E; rewrite firstn_app, repeat_length, Nat.sub_diag; simpl; rewrite app_nil_r; replace k with (List.length (repeat 1 k)) at 1 by apply repeat_length; apply firstn_all).
    replace (forallb (Nat.eqb 1) (firstn k vs)) with true by (symmetry; apply ones_eq; rewrite LF; auto). cbn [negb].
    assert (SK : skipn k (vs ++ [n]) = r ++ [n]).
    { rewrite E, <- app_assoc. rewrite skipn_app, repeat_length, Nat.sub_diag. replace (skipn k (repeat 1 k)) with (@nil nat); [reflexivity|]. symmetry. apply skipn_all2. rewrite repeat_length. auto. }
    rewrite SK. change (List.length (pt p) :: r ++ [n]) with ([List.length (pt p)] ++ r ++ [n]) at 1.
    assert (P' : shp (px p) = [List.length (pt p)] ++ repeat 1 k ++ (r ++ [n])) by (rewrite P, E at 1; rewrite <- app_assoc; reflexivity).
    destruct (reshape_remove (px p) [List.length (pt p)] k (r ++ [n]) P') as (y & Y1 & Y2 & Y3).
    change ((List.length (pt p) :: firstn 0 (vs ++ [n])) ++ r ++ [n]) with ([List.length (pt p)] ++ r ++ [n]). rewrite Y1. cbv beta iota delta [rbind].
    exists (mkProc (pt p) y Linear). assert (EX : exists r, shp y = List.length (pt p) :: r) by (rewrite Y2; simpl; eauto).
    split; [apply process_slice_ok; split; [auto|split; [reflexivity|exact EX]]|]. split; [auto|]. split; [split; auto|]. split; [exact Y2|].
    split; [assert (LV := f_equal (@List.length nat) E); rewrite app_length, repeat_length in LV; unfold k in LV; lia|].
    intros i ix j I1 I2 J. cbn [px]. rewrite <- app_assoc. apply (Y3 [i] (ix ++ [j])); [repeat constructor; auto|apply inb_snoc; auto].
Qed.
(** in both cases the values have as many axes as requested *)
Corollary C39_axes p v vs n q : wf p -> shp (px p) = List.length (pt p) :: vs ++ [n] -> shapeas p v = Ok q ->
  pt q = pt p /\ paths q = paths p /\ List.length (vshape q) = List.length v.
Proof.
  intros W P H. assert (G : forall k r, shp (px q) = k :: r ++ [n] -> List.length (vshape q) = List.length r /\ paths q = n).
  { intros k r E. unfold vshape, paths. rewrite E. change (k :: r ++ [n]) with ((k :: r) ++ [n]). rewrite removelast_snoc, last_snoc. auto. }
  assert (PN : paths p = n) by (unfold paths; rewrite P; change (List.length (pt p) :: vs ++ [n]) with ((List.length (pt p) :: vs) ++ [n]); apply last_snoc). rewrite PN.
  destruct (Nat.le_gt_cases (List.length vs) (List.length v)) as [L|L].
  - destruct (C39_insert p v vs n W P L) as (q' & Q1 & Q2 & _ & Q3 & _). rewrite Q1 in H. injection H as ->. destruct (G _ _ Q3) as [-> ->]. rewrite app_length, repeat_length. split; auto. split; auto. lia.
  - destruct (C39_remove p v vs n W P L) as [R1 R2]. set (k := List.length vs - List.length v) in *.
    destruct (list_eq_dec Nat.eq_dec (firstn k vs) (repeat 1 k)) as [E|E].
    + destruct (R2 (skipn k vs)) as (q' & Q1 & Q2 & _ & Q3 & Q4 & _); [rewrite <- E; symmetry; apply firstn_skipn|]. rewrite Q1 in H. injection H as ->. destruct (G _ _ Q3) as [-> ->]. auto.
    + rewrite R1 in H; [discriminate|]. intros [r ER]. apply E. rewrite ER. rewrite firstn_app, repeat_length, Nat.sub_diag. simpl. rewrite app_nil_r. replace k with (List.length (repeat 1 k)) at 1 by apply repeat_length. apply firstn_all.
Qed.
(** copies *)
Theorem C33_copy p : wf p -> exists q, pcopy p = Ok q /\ pt q = pt p /\ px q = px p.
Proof. intros [P0 P]. exists (mkProc (pt p) (px p) Linear). split; auto. apply process_slice_ok. auto. Qed.

(** all operations return processes with a non empty timeline along the first axis *)
Theorem C33_invariant p q : wf p ->
  (forall mode key, getitem p mode key = Ok q -> wf q) /\
  (forall v, shapeas p v = Ok q -> wf q) /\
  (forall kind t, rebase p kind t = Ok q -> wf q) /\
  (forall s f, psummary s f p = Ok q -> wf q) /\ (forall s f, vsummary s f p = Ok q -> wf q) /\ (forall f, tsummary f p = Ok q -> wf q) /\
  (tcumsum p = Ok q -> wf q) /\ (forall w fwd, tdiff w fwd p = Ok q -> wf q) /\ (tint p = Ok q -> wf q).
Proof.
  intros [P0 [r P]].
  assert (S : forall t x, process_slice t x = Ok q -> wf q) by (intros t x H; apply process_slice_ok in H; destruct H as (H1 & -> & H2); split; auto).
  assert (S1 : forall x, process_from (pt p) x = Ok q -> wf q) by (intros x H; apply process_from_ok in H; destruct H as (-> & H2); split; auto).
  split; [|split; [|split; [|split; [|split; [|split; [|split; [|split]]]]]]].
  - intros mode key H. unfold getitem in H. destruct (String.eqb mode "v").
    + destruct (index_arr _ _); [|discriminate]. eauto.
    + destruct (_ || _); [|discriminate]. destruct (1 <? _); [discriminate|]. destruct (String.eqb mode "t").
      * destruct (index_list _ _); [|discriminate]. cbv beta iota delta [rbind] in H. destruct (index_arr _ _); [|discriminate]. eauto.
      * destruct (index_arr _ _); [|discriminate]. eauto.
  - intros v H. unfold shapeas in H. destruct (_ <? _).
    + destruct (reshape _ _); [|discriminate]. eauto.
    + destruct (_ && _); [discriminate|]. destruct (reshape _ _); [|discriminate]. eauto.
  - intros kind t H. unfold rebase in H. apply C33_x in H. tauto.
  - intros s f H. unfold psummary in H. destruct (_ && _); [discriminate|]. eauto.
  - intros s f H. unfold vsummary in H. destruct (_ && _); [discriminate|]. eauto.
  - intros f H. unfold tsummary in H. apply process_from_ok in H. destruct H as (-> & H2). split; auto. simpl. destruct (pt p); [contradiction|discriminate].
  - unfold tcumsum. eauto.
  - intros w fwd H. unfold tdiff in H. eauto.
  - unfold tint. eauto.
Qed.
End Shapeas.
Print Assumptions C33_copy.
Example C39_ex : match shapeas zp3 [5; 2] with Ok q => shp (px q) = [3; 1; 2; 4] /\ dat (px q) [2; 0; 1; 3] = 213%Z | Err _ => False end.
Proof. vm_compute. auto. Qed.
Example C39_ex_err : shapeas zp3 [] = Err ValueError.
Proof. reflexivity. Qed.
Example C39_ex_back : match (q <- shapeas zp3 [1; 1; 2] ;; shapeas q [2])%res with Ok q => shp (px q) = [3; 2; 4] /\ dat (px q) [2; 1; 3] = 213%Z | Err _ => False end.
Proof. vm_compute. auto. Qed.
Print Assumptions C39_insert.
Print Assumptions C39_remove.
Print Assumptions C39_axes.
Print Assumptions C33_invariant.
