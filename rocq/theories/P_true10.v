(** C25: jumps of size zero, jumps that cancel out, and examples. *)
From Coq Require Import List Arith Bool Lia ZArith Reals Lra Sorted.
From Verif Require Import Base BaseNum BaseArr BaseNd BaseIdx M_process M_source M_true S_process S_source S_mc S_true S_true3 L_nd L_sdes L_process L_process2 L_source L_true L_true2 L_true3 P_source P_source3 P_true P_true3 P_true5 P_true6 L_true6 L_true7 L_true8 P_true8 P_true9 P_true2.
Import ListNotations.
Local Open Scope R_scope.

Local Notation G := (R * list nat)%type.
(** one path, an intensity 2, exact times.  In each sample the i-th jump is [size i] *)
Definition jrvs (size : nat -> R) (t : R) (m j : nat) (g : G) : res (arr R) * G := (Ok (mkArr [m; j] (fun ix => size (nth 1 ix 0%nat))), g).
Definition zstart : arr R := mkArr [1%nat] (bget (ascalar 0)).
Local Notation lam := (PArr (ascalar 2)).
Local Notation cmem := (list (R * @cstored R)).
Lemma jrvs_ok size : rvs_ok (jrvs size).
Proof. intros t m j g y g' E. injection E as <- _. reflexivity. Qed.
Lemma jrvs_drawable size x : drawable (jrvs size) x -> exists i, x = size i.
Proof. intros (tm & m & j & g & y & g' & ix & E & _ & D). injection E as <- _. exists (nth 1 ix 0%nat). symmetry. exact D. Qed.
Lemma lam_ok : intensity_ok ([] ++ [1%nat]) lam.
Proof. intro u. exists (ascalar 2). split; auto. split; auto. intros r _. cbn [ascalar dat]. lra. Qed.
Lemma start_ok : true_new (fun j : arr R => (j, None : option (list (arr R)))) ([] ++ [1%nat]) 0 (ascalar 0) = Ok [(0, (zstart, None))].
Proof. reflexivity. Qed.
Lemma dn_start_ok : true_new (fun n : arr Z => n) ([] ++ [1%nat]) 0 (ascalar 0%Z) = Ok [(0, nstart)].
Proof. reflexivity. Qed.
Lemma entry0 : inb ([] ++ [1%nat]) [0%nat]. Proof. constructor; [lia|constructor]. Qed.
Lemma calm0 : calm 0 0. Proof. left. reflexivity. Qed.

(** a state of the source of counts, after it is evaluated at 4, 1 and -1, with 2 events between 0 and 1 and 3 between 1 and 4;
    then the source is evaluated at 4 *)
Lemma evaluated (size : nat -> R) : exists nm1 gb ys j x4 d,
  count_history ptape btape 1 [] lam 0 ([(0, nstart)], (1, [5; 2; 3]%nat)) (nm1, gb) /\
  true_cpoisson ptape btape (jrvs size) 1 [] lam 0 0 (ascalar 4) None ([(0, (zstart, None))], (nm1, gb)) = (Ok x4, ([(0, (zstart, Some ys)); (4, (j, None))], d)) /\
  (exists n0, count_at ptape btape 1 [] lam 0 d 0 n0 /\ dat n0 [0%nat] = 0%Z) /\ (exists n1, count_at ptape btape 1 [] lam 0 d 1 n1 /\ dat n1 [0%nat] = 2%Z) /\ (exists n4, count_at ptape btape 1 [] lam 0 d 4 n4 /\ dat n4 [0%nat] = 5%Z) /\
  dat x4 [0%nat] = dat j [0%nat] /\ dat j [0%nat] = total (map size (seq 0 5)).
Proof.
  destruct stored_counts as (x4 & st4 & x1 & st1 & xm & [nm1 gb] & nm & n1 & n4 & E4 & E1 & Em & Fm & _ & Vm & V1 & V4 & _). cbn [fst snd] in Fm.
  assert (H : count_history ptape btape 1 [] lam 0 ([(0, nstart)], (1, [5; 2; 3]%nat)) (nm1, gb)). { eapply h_call; [exact E4|]. eapply h_call; [exact E1|]. eapply h_call; [exact Em|]. apply h_nil. }
  pose proof (CI_start ptape btape (jrvs size) 1 [] lam 0 0 ptape_ok btape_ok (Rle_refl 0) 0 (ascalar 0) [(0, (zstart, None))] (ascalar 0%Z) [(0, nstart)] (1, [5; 2; 3]%nat) gb nm1 start_ok dn_start_ok H) as C. destruct C as (W & I & _). cbn [fst snd] in W, I.
  assert (Ne : ndindex ([] ++ [1%nat]) <> []) by discriminate.
  assert (K0 : cnt 0 nm1 0 nstart /\ cnt 0 nm1 1 n1 /\ cnt 0 nm1 4 n4).
  { assert (Cl : forall x, close 0 x x) by (intro x; unfold close; replace (x - x) with 0 by ring; rewrite Rabs_R0; lra). rewrite Fm. split; [|split].
    - exists [(-1, nm)], 0, nstart, [(1, n1); (4, n4)]. split; auto. split; [lra|]. split; [repeat (constructor; [simpl; lra|]); constructor|]. left. split; auto. apply aeq_refl.
    - exists [(-1, nm); (0, nstart)], 1, n1, [(4, n4)]. split; auto. split; [lra|]. split; [repeat (constructor; [simpl; lra|]); constructor|]. left. split; auto. apply aeq_refl.
    - exists [(-1, nm); (0, nstart); (1, n1)], 4, n4, []. split; auto. split; [lra|]. split; [constructor|]. left. split; auto. apply aeq_refl. }
  destruct K0 as (K0 & K1 & K4).
  destruct (out_succeeds ptape btape (jrvs size) 1 [] lam 0 0 ptape_ok btape_ok (jrvs_ok size) (Rle_refl 0) calm0 Ne btape_total lam_ok ltac:(intros; unfold jrvs; eauto) (zstart, None) 0 4 (nm1, gb) I eq_refl) as ([z' zn] & d & Eo).
  destruct (out_spec ptape btape (jrvs size) 1 [] lam 0 0 ptape_ok btape_ok (jrvs_ok size) (Rle_refl 0) calm0 (zstart, None) 0 4 (nm1, gb) z' zn d I eq_refl ltac:(lra) Eo) as (J & ys & na & nb & _ & _ & _ & Sn & _ & X & _). destruct (X ltac:(lra)) as (Ez & Nn & _). clear X J na nb. subst z'. destruct zn as [j y]. cbn [fst snd] in *. subst y.
  pose proof (calls_out ptape btape (jrvs size) 1 [] lam 0 _ _ _ _ _ _ Eo) as Q. assert (Id := dq_DI ptape btape 1 [] lam 0 0 ptape_ok btape_ok (Rle_refl 0) _ _ Q I).
  assert (Count : forall t n, cnt 0 nm1 t n -> exists n', count_at ptape btape 1 [] lam 0 d t n' /\ dat n' [0%nat] = dat n [0%nat]).
  { intros t n K. destruct (cnt_count ptape btape 1 [] lam 0 0 ptape_ok btape_ok d t n Id (dq_cnt ptape btape 1 [] lam 0 0 ptape_ok btape_ok (Rle_refl 0) _ _ _ _ Q I K)) as (n' & A & B). exists n'. split; auto. apply B, entry0. }
  assert (Val : dat j [0%nat] = total (map size (seq 0 5))).
  { assert (E := Eo). unfold cpoisson_out, cpoisson_outside in E. apply dbind_ok in E. destruct E as ([[dj n] ys'] & d2 & Ca & E). apply dbind_ok in E. destruct E as (j' & d3 & A & E). apply dres_ok in A. destruct A as [A ->]. replace (nlt (V := R) 0 4) with true in E by (symmetry; apply L_true.nlt_R; lra). apply dret_ok in E. destruct E as [E _]. injection E as _ <-.
    assert (Rv : rvs_ok (fun t m j => with_memory (M := list (R * arr Z)) (jrvs size t m j))) by (apply rvs_memory_ok, jrvs_ok).
    destruct (C31_jumps _ Rv _ 1 [] (ascalar 0) (ascalar (nsub 4 0)) [] _ _ _ _ _ eq_refl Ca) as [(d1 & Dn) Hj].
    destruct (dn_two ptape btape 1 [] lam 0 0 ptape_ok btape_ok (Rle_refl 0) calm0 _ _ _ _ _ I Dn) as (Q1 & Sn' & a & b & Ca' & Cb & Hn). specialize (Hn _ entry0).
    assert (I1 := dq_DI ptape btape 1 [] lam 0 0 ptape_ok btape_ok (Rle_refl 0) _ _ Q1 I).
    assert (Va : dat a [0%nat] = 0%Z). { rewrite (cnt_same 1 [] 0 0 d1 0 a nstart I1 Ca' (dq_cnt ptape btape 1 [] lam 0 0 ptape_ok btape_ok (Rle_refl 0) _ _ _ _ Q1 I K0) _ entry0). reflexivity. }
    assert (Vb : dat b [0%nat] = 5%Z). { replace (0 + nsub 4 0) with 4 in Cb by (change (nsub (V := R) 4 0) with (4 - 0); ring). rewrite (cnt_same 1 [] 0 0 d1 4 b n4 I1 Cb (dq_cnt ptape btape 1 [] lam 0 0 ptape_ok btape_ok (Rle_refl 0) _ _ _ _ Q1 I K4) _ entry0). exact V4. }
    destruct (Hj Sn') as (Sdj & jumps & Jj & _). destruct (Jj [] [0%nat] ltac:(constructor) entry0) as (J1 & J2 & J3). cbn [app] in *.
    assert (Sg : nsign (V := R) (bget (ascalar (nsub 4 0)) []) = 1%Z). { replace (bget (ascalar (nsub 4 0)) []) with (4 : R) by (unfold bget; cbn; change (nsub (V := R) 4 0) with (4 - 0); ring). rewrite nsign_R. destruct (Rlt_dec 0 4); [reflexivity|lra]. }
    rewrite Sg in J1, J2. rewrite Hn, Va, Vb in J2. change (Z.to_nat (1 * (5 - 0))) with 5%nat in J2.
    destruct (aop_same nadd zstart dj [1%nat] eq_refl Sdj) as (j2 & Ej & _ & Hj2). assert (j2 = j) by (cbn [fst] in A; congruence). subst j2. rewrite (Hj2 _ entry0). rewrite J1. change (dat zstart [0%nat]) with 0. change (nadd (V := R)) with Rplus.
    destruct (J3 ltac:(destruct (jumps [] [0%nat]); discriminate)) as (m & [nm' g1] & y & g2 & k & Ey & _ & Er). injection Ey as <- _. rewrite Er. unfold row. cbn [shp last]. rewrite J2. cbn [map seq app nth dat]. ring. }
  destruct (eval_one ptape btape (jrvs size) 1 [] lam 0 0 4 ([(0, (zstart, None))], (nm1, gb)) j ([(0, (zstart, Some ys)); (4, (j, None))], d)) as (xx & Exx & Ax); auto.
  { pose proof (retrieve1_end fst (cpoisson_out ptape btape (jrvs size) 1 [] lam 0) (cpoisson_in ptape btape 1 [] lam 0) 0 [] 0 (zstart, None) 4 (nm1, gb)) as Qe. cbn [app] in Qe. refine (eq_trans (Qe _) _); [constructor; [simpl; lra|constructor]|]. rewrite Eo.
    replace (isclose (V := R) 0 4 0) with false; [reflexivity|]. symmetry. apply isclose_R_false. unfold close. rewrite Rmult_0_l. replace (4 - 0) with 4 by ring. rewrite Rabs_right; lra. }
  exists nm1, gb, ys, j, xx, d. split; [exact H|]. split; [exact Exx|]. split; [|split; [|split]].
  - destruct (Count 0 nstart K0) as (n & A & B). exists n. split; [exact A|exact B].
  - destruct (Count 1 n1 K1) as (n & A & B). exists n. split; [exact A|rewrite B; exact V1].
  - destruct (Count 4 n4 K4) as (n & A & B). exists n. split; [exact A|rewrite B; exact V4].
  - split; [|exact Val]. apply Ax. destruct Ax as [-> _]. rewrite Sn. exact entry0.
Qed.
Section Cases.
Variables (size : nat -> R) (nm1 : list (R * arr Z)) (gb : G) (ys : list (arr R)) (j x4 : arr R) (d : list (R * arr Z) * G).
Hypothesis H : count_history ptape btape 1 [] lam 0 ([(0, nstart)], (1, [5; 2; 3]%nat)) (nm1, gb).
Hypothesis E : true_cpoisson ptape btape (jrvs size) 1 [] lam 0 0 (ascalar 4) None ([(0, (zstart, None))], (nm1, gb)) = (Ok x4, ([(0, (zstart, Some ys)); (4, (j, None))], d)).
Lemma reached : chistory ptape btape (jrvs size) 1 [] lam 0 0 ([(0, (zstart, None))], (nm1, gb)) ([(0, (zstart, Some ys)); (4, (j, None))], d).
Proof using E. eapply ch_call; [exact E|]. apply ch_nil. Qed.
Lemma accounted : exists J, accounts ([] ++ [1%nat]) (count_at ptape btape 1 [] lam 0 d) (drawable (jrvs size)) [(0, (zstart, Some ys)); (4, (j, None))] J.
Proof using E H. eapply (C25_conserved ptape btape (jrvs size) 1 [] lam 0 0 0 ptape_ok btape_ok (jrvs_ok size) (Rle_refl 0) (Rle_refl 0) calm0 ltac:(discriminate) 0 (ascalar 0) _ (ascalar 0%Z) _ _ _ _ start_ok dn_start_ok H). exact reached. Qed.
(** the five jumps between 0 and 4 *)
Lemma five J n0 n4 : accounts ([] ++ [1%nat]) (count_at ptape btape 1 [] lam 0 d) (drawable (jrvs size)) [(0, (zstart, Some ys)); (4, (j, None))] J ->
  count_at ptape btape 1 [] lam 0 d 0 n0 -> dat n0 [0%nat] = 0%Z -> count_at ptape btape 1 [] lam 0 d 4 n4 -> dat n4 [0%nat] = 5%Z ->
  exists a b c e f, J 0 [0%nat] = [size a; size b; size c; size e; size f] /\ dat j [0%nat] = size a + size b + size c + size e + size f.
Proof using.
  intros [A _] C0 V0 C4 V4. destruct (A [] 0 zstart (Some ys) 4 j None [] eq_refl) as (ys' & m0 & m4 & _ & _ & D0 & D4 & X). unfold count_at in *. assert (m0 = n0) by congruence. assert (m4 = n4) by congruence. subst m0 m4. destruct (X _ entry0) as (Vj & L & F). rewrite V0, V4 in L. change (dat zstart [0%nat]) with 0 in Vj.
  destruct (J 0 [0%nat]) as [|x1 [|x2 [|x3 [|x4' [|x5 [|]]]]]]; cbn [List.length] in L; try lia. rewrite Forall_forall in F.
  assert (K : forall x, In x [x1; x2; x3; x4'; x5] -> exists i, x = size i) by (intros x Ix; apply jrvs_drawable, F, Ix).
  destruct (K x1 ltac:(simpl; auto)) as (a & ->). destruct (K x2 ltac:(simpl; auto)) as (b & ->). destruct (K x3 ltac:(simpl; auto)) as (c & ->). destruct (K x4' ltac:(simpl; auto)) as (e & ->). destruct (K x5 ltac:(simpl; auto 6)) as (f & ->). exists a, b, c, e, f. split; auto. rewrite Vj. cbn [total fold_right]. ring.
Qed.
End Cases.

(** jumps of size zero: once a source has been evaluated at 4, its evaluation at 1 fails *)
Theorem C25_refuted : exists (G : Type) (poisson : arr R -> list nat -> G -> res (arr Z) * G) binomial rvs lam (m0 : list (R * @cstored R)) (nm0 nm1 : list (R * arr Z)) ga gb x st st',
  poisson_ok poisson /\ binomial_ok binomial /\ binomial_total binomial /\ rvs_ok rvs /\ intensity_ok [1%nat] lam /\
  true_new (fun j : arr R => (j, None)) [1%nat] 0 (ascalar 0) = Ok m0 /\ true_new (fun n : arr Z => n) [1%nat] 0 (ascalar 0%Z) = Ok nm0 /\ count_history poisson binomial 1 [] lam 0 (nm0, ga) (nm1, gb) /\
  true_cpoisson poisson binomial rvs 1 [] lam 0 0 (ascalar 4) None (m0, (nm1, gb)) = (Ok x, st) /\
  true_cpoisson poisson binomial rvs 1 [] lam 0 0 (ascalar 1) None st = (Err AssertionError, st').
Proof.
  set (size := fun i => if (i <? 2)%nat then 1 else 0). destruct (evaluated size) as (nm1 & gb & ys & j & x4 & d & H & E & (n0 & C0 & V0) & (n1 & C1 & V1) & (n4 & C4 & V4) & _ & Vj).
  exists G, ptape, btape, (jrvs size), lam, [(0, (zstart, None))], [(0, nstart)], nm1, (1, [5; 2; 3]%nat), gb, x4, ([(0, (zstart, Some ys)); (4, (j, None))], d). eexists.
  split; [exact ptape_ok|]. split; [exact btape_ok|]. split; [exact btape_total|]. split; [apply jrvs_ok|]. split; [exact lam_ok|]. split; [reflexivity|]. split; [reflexivity|]. split; [exact H|]. split; [exact E|].
  destruct (accounted size nm1 gb ys j x4 d H E) as (J & A). destruct (five size ys j d J n0 n4 A C0 V0 C4 V4) as (a & b & c & e & f & EJ & Ej).
  assert (Two : dat j [0%nat] = 2) by (rewrite Vj; unfold size; simpl; ring).
  pose proof (C25_assertion ptape btape (jrvs size) 1 [] lam 0 0 0 ptape_ok btape_ok (jrvs_ok size) (Rle_refl 0) (Rle_refl 0) calm0 ltac:(discriminate) 0 (ascalar 0) _ (ascalar 0%Z) _ _ _ _ start_ok dn_start_ok H [] 0 zstart (Some ys) 4 j None [] d J 1 n0 n1 d (reached size nm1 gb ys j x4 d E) A ltac:(lra) ltac:(lra)) as K.
  assert (Nc : ~ close 0 1 0) by (unfold close; rewrite Rmult_0_l; replace (1 - 0) with 1 by ring; rewrite Rabs_right; lra).
  assert (Ne : exists r, inb ([] ++ [1%nat]) r /\ dat zstart r <> dat j r) by (exists [0%nat]; split; [exact entry0|]; rewrite Two; change (dat zstart [0%nat]) with 0; lra).
  specialize (K Nc Ne C0 C1). cbv zeta in K. unfold most, before, after, effective in K. cbn [app] in K. change (ndindex [1%nat]) with [[0%nat]] in K. cbn [map] in K. rewrite EJ, V0, V1 in K. change (Z.to_nat (2 - 0)) with 2%nat in K. cbn [firstn skipn List.length list_max fold_right filter] in K.
  destruct (Req_EM_T (size a) 0), (Req_EM_T (size b) 0), (Req_EM_T (size c) 0), (Req_EM_T (size e) 0), (Req_EM_T (size f) 0); cbn in K; try exact K.
  exfalso. assert (S : forall i, size i <> 0 -> size i = 1) by (intros i; unfold size; destruct (i <? 2)%nat; [auto|intro N; lra]). rewrite !S in Ej by auto. lra.
Qed.
(** jumps that cancel out: the source is zero at 0 and at 4, so that it is taken to be zero at 1, whatever jumps there are before *)
Theorem C25_cancelling : exists (G : Type) (poisson : arr R -> list nat -> G -> res (arr Z) * G) binomial rvs lam (m0 : list (R * @cstored R)) (nm0 nm1 : list (R * arr Z)) ga gb x4 m d x1 n1,
  poisson_ok poisson /\ binomial_ok binomial /\ binomial_total binomial /\ rvs_ok rvs /\ (forall x, drawable rvs x -> x <> 0) /\ intensity_ok [1%nat] lam /\
  true_new (fun j : arr R => (j, None)) [1%nat] 0 (ascalar 0) = Ok m0 /\ true_new (fun n : arr Z => n) [1%nat] 0 (ascalar 0%Z) = Ok nm0 /\ count_history poisson binomial 1 [] lam 0 (nm0, ga) (nm1, gb) /\
  true_cpoisson poisson binomial rvs 1 [] lam 0 0 (ascalar 4) None (m0, (nm1, gb)) = (Ok x4, (m, d)) /\
  true_cpoisson poisson binomial rvs 1 [] lam 0 0 (ascalar 1) None (m, d) = (Ok x1, (m, d)) /\ count_at poisson binomial 1 [] lam 0 d 1 n1 /\
  dat x1 [0%nat] = 0 /\ dat n1 [0%nat] = 2%Z /\
  forall J, accounts [1%nat] (count_at poisson binomial 1 [] lam 0 d) (drawable rvs) m J -> total (firstn 2 (J 0 [0%nat])) <> 0.
Proof.
  set (size := fun i => if (i <? 2)%nat then 3 else -2). destruct (evaluated size) as (nm1 & gb & ys & j & x4 & d & H & E & (n0 & C0 & V0) & (n1 & C1 & V1) & (n4 & C4 & V4) & _ & Vj).
  assert (Zero : dat j [0%nat] = 0) by (rewrite Vj; unfold size; simpl; ring).
  assert (S : forall i, size i = 3 \/ size i = -2) by (intros i; unfold size; destruct (i <? 2)%nat; auto).
  destruct (C25_equal ptape btape (jrvs size) 1 [] lam 0 0 0 ptape_ok btape_ok (jrvs_ok size) (Rle_refl 0) (Rle_refl 0) calm0 ltac:(discriminate) 0 (ascalar 0) _ (ascalar 0%Z) _ _ _ _ start_ok dn_start_ok H [] 0 zstart (Some ys) 4 j None [] d 1 (reached size nm1 gb ys j x4 d E) ltac:(lra) ltac:(lra)) as (x1 & E1 & _ & X1).
  { intros r Ir. inversion Ir as [|i n l l' Hi Hl]; subst. inversion Hl; subst. replace i with 0%nat by lia. rewrite Zero. reflexivity. }
  exists G, ptape, btape, (jrvs size), lam, [(0, (zstart, None))], [(0, nstart)], nm1, (1, [5; 2; 3]%nat), gb, x4, [(0, (zstart, Some ys)); (4, (j, None))], d, x1, n1.
  split; [exact ptape_ok|]. split; [exact btape_ok|]. split; [exact btape_total|]. split; [apply jrvs_ok|]. split; [intros x Dx; apply jrvs_drawable in Dx; destruct Dx as (i & ->); destruct (S i) as [-> | ->]; lra|]. split; [exact lam_ok|]. split; [reflexivity|]. split; [reflexivity|]. split; [exact H|]. split; [exact E|]. split; [exact E1|]. split; [exact C1|].
  split; [rewrite (X1 _ entry0); exact Zero|]. split; [exact V1|]. intros J A. destruct (five size ys j d J n0 n4 A C0 V0 C4 V4) as (a & b & c & e & f & -> & Ej). cbn [firstn total fold_right]. destruct (S a) as [-> | ->], (S b) as [-> | ->]; lra.
Qed.
(** jumps 1, 3, 5, 7 and 9: the source is 25 at 4, and its evaluation at 1 then succeeds *)
Example C25_ex : exists nm1 gb x4 st4 x1 st1, count_history ptape btape 1 [] lam 0 ([(0, nstart)], (1, [5; 2; 3]%nat)) (nm1, gb) /\
  true_cpoisson ptape btape (jrvs (fun i => INR (2 * i + 1))) 1 [] lam 0 0 (ascalar 4) None ([(0, (zstart, None))], (nm1, gb)) = (Ok x4, st4) /\ dat x4 [0%nat] = 25 /\
  true_cpoisson ptape btape (jrvs (fun i => INR (2 * i + 1))) 1 [] lam 0 0 (ascalar 1) None st4 = (Ok x1, st1).
Proof.
  destruct (evaluated (fun i => INR (2 * i + 1))) as (nm1 & gb & ys & j & x4 & d & H & E & _ & _ & _ & V & Vj).
  assert (Nz : forall x, drawable (jrvs (fun i => INR (2 * i + 1))) x -> x <> 0). { intros x D. apply jrvs_drawable in D. destruct D as (i & ->). apply not_0_INR. lia. }
  pose proof (C25_succeeds ptape btape (jrvs (fun i => INR (2 * i + 1))) 1 [] lam 0 0 0 ptape_ok btape_ok (jrvs_ok _) (Rle_refl 0) (Rle_refl 0) calm0 ltac:(discriminate) 0 (ascalar 0) _ (ascalar 0%Z) _ _ _ _ start_ok dn_start_ok H btape_total lam_ok ltac:(intros; unfold jrvs; eauto) Nz [(ascalar 4, None); (ascalar 1, None)]) as S.
  destruct (true_cpoisson ptape btape (jrvs (fun i => INR (2 * i + 1))) 1 [] lam 0 0 (ascalar 1) None ([(0, (zstart, Some ys)); (4, (j, None))], d)) as [r st1] eqn:E1.
  assert (Rn : run (fun c => true_cpoisson ptape btape (jrvs (fun i => INR (2 * i + 1))) 1 [] lam 0 0 (fst c) (snd c)) [(ascalar 4, None); (ascalar 1, None)] ([(0, (zstart, None))], (nm1, gb)) = ([Ok x4; r], st1)).
  { apply (run_step _ (ascalar 4, None) _ _ _ _ _ _ E). apply (run_step _ (ascalar 1, None) _ _ _ _ _ _ E1). reflexivity. }
  assert (S2 : Forall2 (fun c r => well_shaped c -> exists x : arr R, r = Ok x) [(ascalar 4, None); (ascalar 1, None)] [Ok x4; r]) by (change [Ok x4; r] with (fst ([Ok x4; r], st1)); rewrite <- Rn; exact S).
  inversion S2 as [|? ? ? ? _ S3]; subst. inversion S3 as [|? ? ? ? X _]; subst. destruct (X Logic.I) as (x1 & ->).
  exists nm1, gb, x4, ([(0, (zstart, Some ys)); (4, (j, None))], d), x1, st1. split; [exact H|]. split; [exact E|]. split; [|exact E1]. rewrite V, Vj. cbn [map seq total fold_right]. simpl INR. ring.
Qed.
Print Assumptions C25_conserved.
Print Assumptions C25_split.
Print Assumptions C25_assertion.
Print Assumptions C25_equal.
Print Assumptions C25_succeeds.
Print Assumptions C25_refuted.
Print Assumptions C25_cancelling.
