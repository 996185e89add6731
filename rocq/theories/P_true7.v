(** C22: true_wiener_source with time dependent correlations. *)
From Coq Require Import List Arith Bool Lia ZArith Reals Lra Sorted.
From Verif Require Import Base BaseNum BaseArr BaseNd BaseIdx M_process M_source M_true S_process S_source S_mc S_true S_true2 L_nd L_sdes L_process L_source L_true L_true2 L_true3 L_true4 L_true5 P_source P_source3.
Import ListNotations.
Local Open Scope R_scope.

(** *** the values generated *)
Lemma nsum_msum n f : nsum (V := R) (map f (seq 0 n)) = msum n f.
Proof. rewrite nsum_R. unfold msum. induction (seq 0 n); simpl; congruence. Qed.
Lemma zmul_sign a x : zmul (nsign (V := R) a) x = (if Rlt_dec 0 a then 1 else if Rlt_dec a 0 then -1 else 0) * x.
Proof. rewrite zmul_R; [|rewrite nsign_R; destruct (Rlt_dec 0 a), (Rlt_dec a 0); auto]. rewrite nsign_R. destruct (Rlt_dec 0 a), (Rlt_dec a 0); auto. Qed.

Section Bridge.
Context {G : Type}.
Variable normal : list nat -> G -> res (arr R) * G.
Variable mvnormal : arr R -> list nat -> G -> res (arr R) * G.
Variable inv : arr R -> res (arr R).
Variables (paths : nat) (v : list nat) (M : nat) (corr : param R) (f : R -> res (arr R)) (t0 : R).
Hypothesis MN : mvnormal_ok mvnormal.
Hypothesis IN : inv_ok M inv.
Hypothesis Call : param_call corr = Some f.
Local Notation bridge := (wiener_bridge normal mvnormal inv paths (v ++ [M]) corr t0).
Lemma matmul_square (x y : arr R) : shp x = [M; M] -> shp y = [M; M] -> exists c, matmul x y = Ok c /\ shp c = [M; M] /\ forall i j, entries c i j = mprod M (entries x) (entries y) i j.
Proof. intros E1 E2. unfold matmul. rewrite E1, E2, Nat.eqb_refl. eexists. split; [reflexivity|]. split; auto. intros i j. unfold entries. cbn [mat dat nth]. apply nsum_msum. Qed.
Lemma mult_square (x w : arr R) : shp x = [M; M] -> shp w = v ++ [M; paths] -> exists c, mult x w = Ok c /\ shp c = v ++ [M; paths] /\ forall r i p, List.length r = List.length v -> dat c (r ++ [i; p]) = msum M (fun k => entries x i k * dat w (r ++ [k; p])).
Proof.
  intros E1 E2. unfold mult. rewrite E1, E2, rev_app_distr. cbn [rev app]. rewrite Nat.eqb_refl, rev_involutive. eexists. split; [reflexivity|]. split; auto. intros r i p L. cbn [dat]. rewrite rev_length, <- L, firstn_app, firstn_all, Nat.sub_diag, firstn_O, app_nil_r.
  rewrite !app_nth2 by lia. rewrite Nat.sub_diag. replace (S (List.length r) - List.length r)%nat with 1%nat by lia. cbn [nth]. rewrite nsum_msum. reflexivity.
Qed.
Lemma inb_mat i j : (i < M)%nat -> (j < M)%nat -> inb [M; M] [i; j].
Proof. intros. repeat constructor; auto. Qed.
Lemma inb_entry r i p : inb v r -> (i < M)%nat -> (p < paths)%nat -> inb (v ++ [M; paths]) (r ++ [i; p]).
Proof. intros H Hi Hp. apply Forall2_app; [exact H|]. repeat constructor; auto. Qed.
(** between t1 and t2, on either side of t0 *)
Definition between (t1 s t2 : R) : Prop := t0 <= t1 < s /\ s < t2 \/ t2 < s /\ s < t1 <= t0.
(** the value at s is Z w1 + (1 - Z) w2 plus a draw with covariance Z A, where Z = B J *)
Theorem C22_bridge t1 t2 s ca cb J : between t1 s t2 ->
  f ((t1 + s)/2) = Ok ca -> f ((s + t2)/2) = Ok cb -> shp ca = [M; M] -> shp cb = [M; M] ->
  let A := mscale (s - t1) (entries ca) in let B := mscale (t2 - s) (entries cb) in
  inverse_of M (mplus A B) J ->
  let Z := mprod M B J in
  exists C, shp C = [M; M] /\ meq M (entries C) (mscale (if Rlt_dec t1 s then 1 else -1) (mprod M Z A)) /\
    forall w1 w2 g, shp w1 = v ++ [M; paths] -> shp w2 = v ++ [M; paths] -> exists y g' w, mvnormal C (v ++ [paths]) g = (Ok y, g') /\ bridge w1 w2 t1 t2 s g = (Ok w, g') /\ shp w = v ++ [M; paths] /\
      forall r i p, inb v r -> (i < M)%nat -> (p < paths)%nat ->
        dat w (r ++ [i; p]) = msum M (fun k => Z i k * dat w1 (r ++ [k; p])) + msum M (fun k => (mone i k - Z i k) * dat w2 (r ++ [k; p])) + dat y (r ++ [p; i]).
Proof using MN IN Call.
  intros Bt Fa Fb Sa Sb A B HJ Z.
  set (Aa := amap (fun x => nmul x (nsub s t1)) ca). set (Ba := amap (fun x => nmul x (nsub t2 s)) cb).
  assert (EA : meq M (entries Aa) A) by (intros i j Li Lj; unfold entries, Aa, A, mscale; cbn [amap dat]; change (nmul (V := R)) with Rmult; change (nsub (V := R)) with Rminus; unfold entries; ring).
  assert (EB : meq M (entries Ba) B) by (intros i j Li Lj; unfold entries, Ba, B, mscale; cbn [amap dat]; change (nmul (V := R)) with Rmult; change (nsub (V := R)) with Rminus; unfold entries; ring).
  destruct (aop_same nadd Aa Ba [M; M] Sa Sb) as (AB & EAB & SAB & HAB).
  assert (EAB' : meq M (entries AB) (mplus A B)). { intros i j Li Lj. unfold entries at 1. rewrite HAB by (apply inb_mat; auto). unfold mplus. rewrite <- EA, <- EB by auto. reflexivity. }
  assert (HJ' : inverse_of M (entries AB) J). { destruct HJ as [H1 H2]. split; rewrite EAB'; auto. }
  destruct (IN AB J SAB HJ') as (I & EI & SI & HI).
  assert (EIJ : meq M (entries I) J). { rewrite <- (mprod_one_r M (entries I)), <- (proj1 HJ'), mprod_assoc, (proj2 HI), mprod_one_l. reflexivity. }
  destruct (matmul_square Ba I Sb SI) as (Zm & EZ & SZ & HZ). assert (HZ' : meq M (entries Zm) Z). { intros i j Li Lj. rewrite HZ. apply mprod_proper; auto. }
  destruct (matmul_square Zm Aa SZ Sa) as (Cm & EC & SC & HC). assert (HC' : meq M (entries Cm) (mprod M Z A)). { intros i j Li Lj. rewrite HC. apply mprod_proper; auto. }
  destruct (aop_same nsub (eye M) Zm [M; M] eq_refl SZ) as (M1 & EM1 & SM1 & HM1).
  set (C := amap (zmul (nsign (nsub s t1))) Cm). exists C. split; [exact SC|].
  assert (Sg : (if Rlt_dec 0 (s - t1) then 1 else if Rlt_dec (s - t1) 0 then -1 else 0) = if Rlt_dec t1 s then 1 else -1).
  { unfold between in Bt. destruct (Rlt_dec t1 s), (Rlt_dec 0 (s - t1)), (Rlt_dec (s - t1) 0); lra. }
  split.
  { intros i j Li Lj. unfold entries, C. cbn [amap dat]. rewrite zmul_sign. change (nsub s t1) with (s - t1). rewrite Sg. unfold mscale. rewrite <- HC' by auto. reflexivity. }
  intros w1 w2 g S1 S2. destruct (C27_constant normal mvnormal paths v M C (ascalar 0) (ascalar 1) g [] MN eq_refl ltac:(left; exact SC)) as (y & g' & d & Y1 & D1 & Sd & Hd). cbn [app] in Y1, Sd. assert (PC : plain C = C) by (unfold plain; change (shp C) with (shp Cm); rewrite SC; reflexivity). rewrite PC in Y1.
  destruct (mult_square Zm w1 SZ S1) as (x1 & X1 & SX1 & HX1). destruct (mult_square M1 w2 SM1 S2) as (x2 & X2 & SX2 & HX2). destruct (aop_same nadd x1 x2 _ SX1 SX2) as (x & EX & SX & HX). destruct (aop_same nadd x d _ SX Sd) as (w & EW & SW & HW).
  exists y, g', w. split; auto. split; [|split; auto].
  - unfold wiener_bridge. replace ((nle t0 t1 && nlt t1 s && nlt s t2) || (nlt t2 s && nlt s t1 && nle t1 t0)) with true.
    + rewrite Call. unfold dbind, dres. cbv zeta. change (ndiv (nadd t1 s) ntwo) with ((t1 + s)/2). change (ndiv (nadd s t2) ntwo) with ((s + t2)/2). rewrite Fa, Fb. fold Aa Ba. rewrite EAB. unfold linalg_inv. rewrite SAB, Nat.eqb_refl, EI, EZ, EC.
      change (shp Aa) with (shp ca). rewrite Sa. cbn [nth]. rewrite EM1. unfold bridge_sum, dbind, dres, dw. rewrite X1, X2, EX. fold C. change (@nzero R _) with 0. change (@none R _) with 1. rewrite D1, EW. reflexivity.
    + symmetry. apply orb_true_iff. rewrite !andb_true_iff, !nle_R, !nlt_R. unfold between in Bt. tauto.
  - intros r i p Ir Li Lp. assert (Ii := inb_entry r i p Ir Li Lp). rewrite HW, HX by auto. assert (Lr : List.length r = List.length v) by (clear - Ir; induction Ir; simpl; auto).
    rewrite HX1, HX2 by auto. pose proof (Hd [] r i p ltac:(constructor) Ir Li Lp) as Q. cbn [app] in Q. rewrite Q. unfold bget. cbn [ascalar dat shp]. rewrite Rabs_R1, sqrt_1, Rmult_1_r. change (nadd (V := R)) with Rplus. f_equal. f_equal.
    + apply msum_ext. intros k Lk. rewrite HZ' by auto. auto.
    + apply msum_ext. intros k Lk. f_equal. unfold entries. rewrite HM1 by (apply inb_mat; auto). cbn [eye mat dat nth]. change (nsub (V := R)) with Rminus. change (dat Zm [i; k]) with (entries Zm i k). rewrite HZ' by auto. reflexivity.
Qed.
End Bridge.

(** *** covariances *)
Section Moments.
Context {Omega : Type}.
Variable E : (Omega -> R) -> R.
Hypothesis Lin : linear E.
Variable n : nat.
Local Notation sm := (second_moments E n).
Lemma E_ext X Y : (forall o, X o = Y o) -> E X = E Y.
Proof using Lin. apply (proj1 Lin). Qed.
Lemma E_add X Y : E (fun o => X o + Y o) = E X + E Y.
Proof using Lin. apply (proj1 (proj2 Lin)). Qed.
Lemma E_scale a X : E (fun o => a * X o) = a * E X.
Proof using Lin. apply (proj2 (proj2 Lin)). Qed.
Lemma E_null : E (fun _ => 0) = 0.
Proof using Lin. rewrite (E_ext _ (fun o => 0 * 0)) by (intro; ring). rewrite (E_scale 0 (fun _ => 0)). ring. Qed.
Lemma E_msum m (c : nat -> R) (x : nat -> Omega -> R) : E (fun o => msum m (fun k => c k * x k o)) = msum m (fun k => c k * E (x k)).
Proof using Lin.
  induction m.
  - rewrite (E_ext _ (fun _ => 0)) by (intro; apply msum_0). apply E_null.
  - rewrite msum_S, <- IHm, <- E_scale, <- E_add. apply E_ext. intro o. rewrite msum_S. auto.
Qed.
Lemma sm_ext X X' Y Y' C C' : (forall i o, (i < n)%nat -> X i o = X' i o) -> (forall i o, (i < n)%nat -> Y i o = Y' i o) -> meq n C C' -> sm X Y C -> sm X' Y' C'.
Proof using Lin. intros HX HY HC H i j Li Lj. rewrite <- HC, <- H by auto. apply E_ext. intro o. rewrite HX, HY; auto. Qed.
Lemma sm_trans X Y C : sm X Y C -> sm Y X (mtrans C).
Proof using Lin. intros H i j Li Lj. unfold mtrans. rewrite <- H by auto. apply E_ext. intro. ring. Qed.
Lemma sm_add X X' Y C C' : sm X Y C -> sm X' Y C' -> sm (fun i o => X i o + X' i o) Y (mplus C C').
Proof using Lin. intros H H' i j Li Lj. unfold mplus. rewrite <- H, <- H', <- E_add by auto. apply E_ext. intro. ring. Qed.
Lemma sm_scale a X Y C : sm X Y C -> sm (fun i o => a * X i o) Y (mscale a C).
Proof using Lin. intros H i j Li Lj. unfold mscale. rewrite <- H, <- E_scale by auto. apply E_ext. intro. ring. Qed.
Lemma sm_mult P X Y C : sm X Y C -> sm (fun i o => msum n (fun k => P i k * X k o)) Y (mprod n P C).
Proof using Lin.
  intros H i j Li Lj. rewrite (E_ext _ (fun o => msum n (fun k => P i k * (X k o * Y j o)))) by (intro; rewrite <- msum_scale_r; apply msum_ext; intros; ring).
  rewrite (E_msum n (P i) (fun k o => X k o * Y j o)). apply msum_ext. intros k Lk. rewrite H; auto.
Qed.
Lemma sm_add_r X Y Y' C C' : sm X Y C -> sm X Y' C' -> sm X (fun i o => Y i o + Y' i o) (mplus C C').
Proof using Lin. intros H H'. apply (sm_trans (fun i o => Y i o + Y' i o) X (mplus (mtrans C) (mtrans C'))). apply sm_add; apply sm_trans; auto. Qed.
Lemma sm_mult_r P X Y C : sm X Y C -> sm X (fun i o => msum n (fun k => P i k * Y k o)) (mprod n C (mtrans P)).
Proof using Lin. intros H. apply (sm_ext X X (fun i o => msum n (fun k => P i k * Y k o)) (fun i o => msum n (fun k => P i k * Y k o)) (mtrans (mprod n P (mtrans C)))); auto; [rewrite mtrans_prod, mtrans_invol; reflexivity|]. apply sm_trans, sm_mult, sm_trans. auto. Qed.
Lemma mprod_zero_r P : meq n (mprod n P mzero) mzero.
Proof. intros i j _ _. unfold mprod, mzero. rewrite (msum_ext n _ (fun _ => 0)) by (intros; ring). apply msum_zero. Qed.
Lemma mprod_zero_l P : meq n (mprod n mzero P) mzero.
Proof. intros i j _ _. unfold mprod, mzero. rewrite (msum_ext n _ (fun _ => 0)) by (intros; ring). apply msum_zero. Qed.
Variables A B J : matrix.
Hypothesis SA : symmetric n A.
Hypothesis SB : symmetric n B.
Hypothesis Inv : inverse_of n (mplus A B) J.
Variables w1 w2 ws d : nat -> Omega -> R.
(** w1 + x, with x = w2 - w1: the variates the value at s is made of *)
Let x := fun i o => w2 i o - w1 i o.
Let Z := mprod n B J.
Hypothesis Xx : sm x x (mplus A B).
Hypothesis X1 : sm x w1 mzero.
Hypothesis Dd : sm d d (mprod n Z A).
Hypothesis D1 : sm d w1 mzero.
Hypothesis D2 : sm d w2 mzero.
Hypothesis Ws : forall i o, (i < n)%nat -> ws i o = msum n (fun k => Z i k * w1 k o) + msum n (fun k => (mone i k - Z i k) * w2 k o) + d i o.
Let u := fun i o => msum n (fun k => mprod n A J i k * x k o).
Let r := fun i o => msum n (fun k => Z i k * x k o).
Lemma ws_1 i o : (i < n)%nat -> ws i o - w1 i o = u i o + d i o.
Proof using Inv Ws.
  intro L. rewrite Ws by auto. unfold u, x. assert (Q : forall k, (k < n)%nat -> mprod n A J i k = mone i k - Z i k).
  { intros k Lk. pose proof (A_J n A B J Inv i k L Lk) as Q. unfold mplus in Q. fold Z in Q. lra. }
  rewrite (msum_ext n (fun k => mprod n A J i k * (w2 k o - w1 k o)) (fun k => (mone i k - Z i k) * w2 k o + ((-1) * (mone i k * w1 k o) + Z i k * w1 k o))) by (intros k Lk; rewrite Q by auto; ring).
  rewrite !msum_add, msum_scale. unfold mone at 3. rewrite (msum_one n i (fun k => w1 k o) L). ring.
Qed.
Lemma ws_2 i o : (i < n)%nat -> w2 i o - ws i o = r i o + (-1) * d i o.
Proof using Ws.
  intro L. rewrite Ws by auto. unfold r, x. rewrite (msum_ext n (fun k => (mone i k - Z i k) * w2 k o) (fun k => mone i k * w2 k o + (-1) * (Z i k * w2 k o))) by (intros; ring).
  rewrite (msum_ext n (fun k => Z i k * (w2 k o - w1 k o)) (fun k => Z i k * w2 k o + (-1) * (Z i k * w1 k o))) by (intros; ring). rewrite !msum_add, !msum_scale. unfold mone. rewrite (msum_one n i (fun k => w2 k o) L). ring.
Qed.
Lemma d_x : sm d x mzero.
Proof using Lin D1 D2. intros i j Li Lj. unfold x. rewrite (E_ext _ (fun o => d i o * w2 j o + (-1) * (d i o * w1 j o))) by (intro; ring). rewrite E_add, E_scale, D1, D2 by auto. unfold mzero. ring. Qed.
Lemma d_u : sm d u mzero.
Proof using Lin D1 D2. apply (sm_ext d d u u (mprod n mzero (mtrans (mprod n A J)))); auto; [apply mprod_zero_l|]. apply sm_mult_r, d_x. Qed.
Lemma d_r : sm d r mzero.
Proof using Lin D1 D2. apply (sm_ext d d r r (mprod n mzero (mtrans Z))); auto; [apply mprod_zero_l|]. apply sm_mult_r, d_x. Qed.
(** the first part has covariance A, the second part B; each is uncorrelated with what comes before *)
Theorem C22_moments :
  sm (fun i o => ws i o - w1 i o) (fun i o => ws i o - w1 i o) A /\ sm (fun i o => w2 i o - ws i o) (fun i o => w2 i o - ws i o) B /\
  sm (fun i o => ws i o - w1 i o) w1 mzero /\ sm (fun i o => w2 i o - ws i o) ws mzero /\ symmetric n (mprod n Z A).
Proof using Lin SA SB Inv Xx X1 Dd D1 D2 Ws.
  assert (Ux : forall P Q, sm (fun i o => msum n (fun k => P i k * x k o)) (fun i o => msum n (fun k => Q i k * x k o)) (mprod n (mprod n P (mplus A B)) (mtrans Q))) by (intros; apply sm_mult_r, sm_mult, Xx).
  split; [|split; [|split; [|split; [|apply (ZA_symmetric n A B J SA SB Inv)]]]].
  - apply (sm_ext (fun i o => u i o + d i o) _ (fun i o => u i o + d i o) _ (mplus (mplus (mprod n (mprod n (mprod n A J) (mplus A B)) (mtrans (mprod n A J))) (mtrans mzero)) (mplus mzero (mprod n Z A)))).
    + intros. symmetry. apply ws_1; auto.
    + intros. symmetry. apply ws_1; auto.
    + pose proof (first_part n A B J SA SB Inv) as Q. intros i j Li Lj. specialize (Q i j Li Lj). fold Z in Q. unfold mplus at 1 2 4, mtrans at 2, mzero. unfold mplus at 1 in Q. lra.
    + apply sm_add; apply sm_add_r; [apply Ux|apply sm_trans, d_u|apply d_u|apply Dd].
  - apply (sm_ext (fun i o => r i o + (-1) * d i o) _ (fun i o => r i o + (-1) * d i o) _ (mplus (mplus (mprod n (mprod n Z (mplus A B)) (mtrans Z)) (mtrans (mscale (-1) mzero))) (mplus (mscale (-1) mzero) (mscale (-1) (mtrans (mscale (-1) (mtrans (mprod n Z A)))))))).
    + intros. symmetry. apply ws_2; auto.
    + intros. symmetry. apply ws_2; auto.
    + pose proof (second_part n A B J SA SB Inv) as Q. intros i j Li Lj. specialize (Q i j Li Lj). fold Z in Q. unfold mplus at 1 2 4, mtrans at 2 3 4, mzero, mscale. unfold mplus at 1 in Q. lra.
    + apply sm_add; apply sm_add_r; [apply Ux|apply sm_trans, sm_scale, d_r|apply sm_scale, d_r|apply sm_scale, sm_trans, sm_scale, sm_trans, Dd].
  - apply (sm_ext (fun i o => u i o + d i o) _ w1 _ (mplus (mprod n (mprod n A J) mzero) mzero)); auto.
    + intros. symmetry. apply ws_1; auto.
    + intros i j Li Lj. unfold mplus. rewrite mprod_zero_r by auto. unfold mzero. ring.
    + apply sm_add; [apply sm_mult, X1|apply D1].
  - apply (sm_ext (fun i o => r i o + (-1) * d i o) _ (fun i o => w1 i o + (u i o + d i o)) _ (mplus (mplus (mprod n Z mzero) (mplus (mprod n (mprod n Z (mplus A B)) (mtrans (mprod n A J))) (mtrans mzero))) (mscale (-1) (mplus mzero (mplus mzero (mprod n Z A)))))).
    + intros. symmetry. apply ws_2; auto.
    + intros i o L. rewrite <- ws_1 by auto. ring.
    + pose proof (cross_part n A B J SA SB Inv) as Q. intros i j Li Lj. specialize (Q i j Li Lj). fold Z in Q. unfold mplus at 1 2 3 5 6, mscale. rewrite mprod_zero_r by auto. unfold mzero, mtrans at 2. rewrite Q. ring.
    + apply sm_add; [apply sm_add_r; [apply sm_mult, X1|apply sm_add_r; [apply Ux|apply sm_trans, d_r]]|apply sm_scale; apply sm_add_r; [apply D1|apply sm_add_r; [apply d_u|apply Dd]]].
Qed.
End Moments.

(** the values generated by new_inside, given values with the covariances of two adjacent increments, have those covariances *)
Theorem C22_covariance {G Omega} (normal : list nat -> G -> res (arr R) * G) mvnormal inv paths v M corr f t0 t1 t2 s ca cb J (E : (Omega -> R) -> R) (g : Omega -> G) (w1 w2 ws : Omega -> arr R) r p :
  mvnormal_ok mvnormal -> inv_ok M inv -> param_call corr = Some f -> linear E -> between t0 t1 s t2 ->
  f ((t1 + s)/2) = Ok ca -> f ((s + t2)/2) = Ok cb -> shp ca = [M; M] -> shp cb = [M; M] ->
  symmetric M (entries ca) -> symmetric M (entries cb) ->
  let A := mscale (Rabs (s - t1)) (entries ca) in let B := mscale (Rabs (t2 - s)) (entries cb) in
  inverse_of M (mplus A B) J ->
  (forall o, shp (w1 o) = v ++ [M; paths]) -> (forall o, shp (w2 o) = v ++ [M; paths]) ->
  (forall o, fst (wiener_bridge normal mvnormal inv paths (v ++ [M]) corr t0 (w1 o) (w2 o) t1 t2 s (g o)) = Ok (ws o)) ->
  inb v r -> (p < paths)%nat ->
  let at_ (w : Omega -> arr R) i o := dat (w o) (r ++ [i; p]) in
  let diff (w w' : Omega -> arr R) i o := at_ w' i o - at_ w i o in
  second_moments E M (diff w1 w2) (diff w1 w2) (mplus A B) -> second_moments E M (diff w1 w2) (at_ w1) mzero ->
  exists C, shp C = [M; M] /\ symmetric M (entries C) /\
    forall y : Omega -> arr R, (forall o, fst (mvnormal C (v ++ [paths]) (g o)) = Ok (y o)) ->
      let d i o := dat (y o) (r ++ [p; i]) in
      second_moments E M d d (entries C) -> second_moments E M d (at_ w1) mzero -> second_moments E M d (at_ w2) mzero ->
      second_moments E M (diff w1 ws) (diff w1 ws) A /\ second_moments E M (diff ws w2) (diff ws w2) B /\ second_moments E M (diff w1 ws) (at_ w1) mzero /\ second_moments E M (diff ws w2) (at_ ws) mzero.
Proof.
  intros MN IN Call Lin Bt Fa Fb Sa Sb SYa SYb A B HJ S1 S2 Ew Ir Lp at_ diff Hx Hx1.
  set (sg := if Rlt_dec t1 s then 1 else -1). assert (Sg : sg * sg = 1) by (unfold sg; destruct (Rlt_dec t1 s); lra).
  assert (EA : meq M (mscale (s - t1) (entries ca)) (mscale sg A)).
  { intros i j _ _. unfold A, mscale, sg. unfold between in Bt. destruct (Rlt_dec t1 s); [rewrite Rabs_right by lra|rewrite Rabs_left by lra]; ring. }
  assert (EB : meq M (mscale (t2 - s) (entries cb)) (mscale sg B)).
  { intros i j _ _. unfold B, mscale, sg. unfold between in Bt. destruct (Rlt_dec t1 s); [rewrite Rabs_right by lra|rewrite Rabs_left by lra]; ring. }
  assert (ss : forall X, meq M (mscale sg (mscale sg X)) X) by (intros X i j _ _; unfold mscale; rewrite <- Rmult_assoc, Sg; ring).
  assert (sp : meq M (mplus (mscale sg A) (mscale sg B)) (mscale sg (mplus A B))) by (intros i j _ _; unfold mplus, mscale; ring).
  assert (HJ' : inverse_of M (mplus (mscale (s - t1) (entries ca)) (mscale (t2 - s) (entries cb))) (mscale sg J)).
  { destruct HJ as [H1 H2]. split; rewrite EA, EB, sp, mprod_scale_l, mprod_scale_r, ss; auto. }
  assert (EZ : meq M (mprod M (mscale (t2 - s) (entries cb)) (mscale sg J)) (mprod M B J)) by (rewrite EB, mprod_scale_l, mprod_scale_r, ss; reflexivity).
  destruct (C22_bridge normal mvnormal inv paths v M corr f t0 MN IN Call t1 t2 s ca cb (mscale sg J) Bt Fa Fb Sa Sb HJ') as (C & SC & HC & F). fold sg in HC.
  assert (HC' : meq M (entries C) (mprod M (mprod M B J) A)). { rewrite HC. rewrite (mprod_proper M _ _ EZ _ _ EA). rewrite mprod_scale_r, ss. reflexivity. }
  assert (SA : symmetric M A) by (intros i j Li Lj; unfold A, mscale, mtrans; rewrite SYa by auto; reflexivity). assert (SB : symmetric M B) by (intros i j Li Lj; unfold B, mscale, mtrans; rewrite SYb by auto; reflexivity).
  exists C. split; auto. split. { intros i j Li Lj. unfold mtrans. rewrite !HC' by auto. apply (ZA_symmetric M A B J SA SB HJ); auto. }
  intros y Hy d Dd D1 D2.
  destruct (C22_moments E Lin M A B J SA SB HJ (at_ w1) (at_ w2) (at_ ws) d Hx Hx1) as (M1 & M2 & M3 & M4 & _); auto.
  - intros i j Li Lj. rewrite <- HC' by auto. apply Dd; auto.
  - intros i o Li. destruct (F (w1 o) (w2 o) (g o) (S1 o) (S2 o)) as (y' & g' & w' & Ey & Ew' & Sw & Hw). assert (y' = y o) by (specialize (Hy o); rewrite Ey in Hy; cbn [fst] in Hy; congruence). assert (w' = ws o) by (specialize (Ew o); rewrite Ew' in Ew; cbn [fst] in Ew; congruence). subst y' w'.
    unfold at_ at 1. rewrite Hw by auto. unfold d. f_equal. f_equal; apply msum_ext; intros k Lk; rewrite EZ by auto; reflexivity.
Qed.

(** outside of the stored values: an increment with the matrix at the middle of the time interval *)
Theorem C22_outside {G} (normal : list nat -> G -> res (arr R) * G) mvnormal paths v M corr f t0 t s c w g :
  mvnormal_ok mvnormal -> param_call corr = Some f -> t0 <= t < s \/ s < t <= t0 -> f ((t + s)/2) = Ok c -> is_matrix M c -> shp w = v ++ [M; paths] ->
  exists z g' w', mvnormal (plain c) (v ++ [paths]) g = (Ok z, g') /\ wiener_outside normal mvnormal paths (v ++ [M]) corr t0 w t s g = (Ok (w, w'), g') /\ shp w' = v ++ [M; paths] /\
    forall r m j, inb v r -> (m < M)%nat -> (j < paths)%nat -> dat w' (r ++ [m; j]) = dat w (r ++ [m; j]) + sqrt (Rabs (s - t)) * dat z (r ++ [j; m]).
Proof.
  intros MN Call Bt F IM Sw. destruct (C27_constant normal mvnormal paths v M c (ascalar t) (ascalar (s - t)) g [] MN eq_refl IM) as (z & g' & dz & E1 & E2 & E3 & E4).
  destruct (aop_same nadd w dz (v ++ [M; paths]) Sw E3) as (w' & A1 & A2 & A3).
  exists z, g', w'. split; [exact E1|]. split; [|split; [exact A2|]].
  - unfold wiener_outside. replace ((nle t0 t && nlt t s) || (nlt s t && nle t t0)) with true; [|symmetry; apply orb_true_iff; rewrite !andb_true_iff, !nle_R, !nlt_R; lra].
    rewrite Call. unfold dw, dbind at 1, dbind at 1, dres at 1. change (ndiv (nadd t s) ntwo) with ((t + s)/2). rewrite F. unfold dret at 1. unfold dbind at 1. change (nsub s t) with (s - t). rewrite E2. unfold dbind, dres. rewrite A1. reflexivity.
  - intros r m j I1 I2 I3. rewrite A3 by (apply inb_entry; auto). pose proof (E4 [] r m j (Forall2_nil _) I1 I2 I3) as K. cbn [app] in K. rewrite K. change (bget (ascalar (s - t)) []) with (s - t). change (nadd (V := R)) with Rplus. cbn [app]. ring.
Qed.

(** a correlation given as a process, whose values have a paths axis, does not do: no value can be generated between stored ones *)
Theorem C22_process {G} (normal : list nat -> G -> res (arr R) * G) mvnormal inv paths v M corr f t0 t1 t2 s ca cb w1 w2 g :
  param_call corr = Some f -> between t0 t1 s t2 -> f ((t1 + s)/2) = Ok ca -> f ((s + t2)/2) = Ok cb -> shp ca = [M; M; 1%nat] -> shp cb = [M; M; 1%nat] ->
  exists e, wiener_bridge normal mvnormal inv paths (v ++ [M]) corr t0 w1 w2 t1 t2 s g = (Err e, g) /\ (e = LinAlgError \/ e = ValueError /\ M = 1%nat).
Proof.
  intros Call Bt Fa Fb Sa Sb. unfold wiener_bridge. replace ((nle t0 t1 && nlt t1 s && nlt s t2) || (nlt t2 s && nlt s t1 && nle t1 t0)) with true; [|symmetry; apply orb_true_iff; rewrite !andb_true_iff, !nle_R, !nlt_R; unfold between in Bt; tauto].
  rewrite Call. unfold dbind, dres. cbv zeta. change (ndiv (nadd t1 s) ntwo) with ((t1 + s)/2). change (ndiv (nadd s t2) ntwo) with ((s + t2)/2). rewrite Fa, Fb.
  destruct (aop_same nadd (amap (fun x => nmul x (nsub s t1)) ca) (amap (fun x => nmul x (nsub t2 s)) cb) _ Sa Sb) as (AB & -> & SAB & _). unfold linalg_inv. rewrite SAB. destruct (Nat.eqb_spec M 1); eexists; split; reflexivity || auto.
Qed.

(** *** an example: correlation 0 before time 2 and 1/2 after it, from 0 to 1 and from 1 to 3 *)
Definition corr_ex (t : R) : res (arr R) := Ok (mat 2 2 (fun i j => if (i =? j)%nat then 1 else if Rle_dec 2 t then 1/2 else 0)).
Definition inv2 (x : arr R) : res (arr R) :=
  let a := dat x [0; 0]%nat in let b := dat x [0; 1]%nat in let c := dat x [1; 0]%nat in let d := dat x [1; 1]%nat in
  Ok (mat 2 2 (fun i j => (if (i =? j)%nat then if (i =? 0)%nat then d else a else if (i =? 0)%nat then - b else - c)/(a * d - b * c))).
Lemma two i : (i < 2)%nat -> i = 0%nat \/ i = 1%nat.
Proof. lia. Qed.
Lemma inv2_ok : inv_ok 2 inv2.
Proof.
  intros x J Sx [H1 H2]. unfold inv2. eexists. split; [reflexivity|]. split; [reflexivity|].
  assert (D : dat x [0; 0]%nat * dat x [1; 1]%nat - dat x [0; 1]%nat * dat x [1; 0]%nat <> 0).
  { intro D. pose proof (H1 0%nat 0%nat ltac:(lia) ltac:(lia)) as Q00. pose proof (H1 0%nat 1%nat ltac:(lia) ltac:(lia)) as Q01. pose proof (H1 1%nat 0%nat ltac:(lia) ltac:(lia)) as Q10. pose proof (H1 1%nat 1%nat ltac:(lia) ltac:(lia)) as Q11.
    unfold mprod, msum, mone, entries in Q00, Q01, Q10, Q11. cbn in Q00, Q01, Q10, Q11.
    assert (K : (dat x [0; 0]%nat * dat x [1; 1]%nat - dat x [0; 1]%nat * dat x [1; 0]%nat) * (J 0%nat 0%nat * J 1%nat 1%nat - J 0%nat 1%nat * J 1%nat 0%nat) = 1).
    { transitivity ((dat x [0; 0]%nat * J 0%nat 0%nat + (dat x [0; 1]%nat * J 1%nat 0%nat + 0)) * (dat x [1; 0]%nat * J 0%nat 1%nat + (dat x [1; 1]%nat * J 1%nat 1%nat + 0)) - (dat x [0; 0]%nat * J 0%nat 1%nat + (dat x [0; 1]%nat * J 1%nat 1%nat + 0)) * (dat x [1; 0]%nat * J 0%nat 0%nat + (dat x [1; 1]%nat * J 1%nat 0%nat + 0))); [ring|]. rewrite Q00, Q01, Q10, Q11. ring. }
    rewrite D in K. lra. }
  split; intros i j Li Lj; destruct (two i Li) as [-> | ->], (two j Lj) as [-> | ->]; unfold mprod, msum, mone, entries; cbn; field; exact D.
Qed.
(** A + B = [[3, 1], [1, 3]], Z = B (A + B)^-1 = [[5, 1], [1, 5]]/8 and the covariance of the draw is Z A = Z *)
Example C22_ex {G} (normal : list nat -> G -> res (arr R) * G) mvnormal : mvnormal_ok mvnormal ->
  exists C, shp C = [2; 2]%nat /\ dat C [0; 0]%nat = 5/8 /\ dat C [0; 1]%nat = 1/8 /\ dat C [1; 0]%nat = 1/8 /\ dat C [1; 1]%nat = 5/8 /\
    forall w1 w2 g, shp w1 = [2; 1]%nat -> shp w2 = [2; 1]%nat -> exists y g' w, mvnormal C [1%nat] g = (Ok y, g') /\
      wiener_bridge normal mvnormal inv2 1 [2%nat] (PFun corr_ex (Some [2; 2]%nat)) 0 w1 w2 0 3 1 g = (Ok w, g') /\
      dat w [0; 0]%nat = 5/8 * dat w1 [0; 0]%nat + 1/8 * dat w1 [1; 0]%nat + 3/8 * dat w2 [0; 0]%nat - 1/8 * dat w2 [1; 0]%nat + dat y [0; 0]%nat.
Proof.
  intro MN. set (ca := mat 2 2 (fun i j => if (i =? j)%nat then 1 else 0) : arr R). set (cb := mat 2 2 (fun i j => if (i =? j)%nat then 1 else 1/2) : arr R).
  set (J := (fun i j => if (i =? j)%nat then 3/8 else -1/8) : matrix).
  assert (F1 : corr_ex ((0 + 1)/2) = Ok ca) by (unfold corr_ex, ca; destruct (Rle_dec 2 ((0 + 1)/2)); [lra|reflexivity]).
  assert (F2 : corr_ex ((1 + 3)/2) = Ok cb) by (unfold corr_ex, cb; destruct (Rle_dec 2 ((1 + 3)/2)); [reflexivity|lra]).
  assert (HJ : inverse_of 2 (mplus (mscale (1 - 0) (entries ca)) (mscale (3 - 1) (entries cb))) J).
  { split; intros i j Li Lj; destruct (two i Li) as [-> | ->], (two j Lj) as [-> | ->]; unfold mprod, mplus, mscale, entries, ca, cb, J, msum, mone; cbn; lra. }
  destruct (C22_bridge normal mvnormal inv2 1 [] 2 (PFun corr_ex (Some [2; 2]%nat)) corr_ex 0 MN inv2_ok eq_refl 0 3 1 ca cb J ltac:(left; lra) F1 F2 eq_refl eq_refl HJ) as (C & SC & HC & F).
  destruct (Rlt_dec 0 1) as [_|]; [|lra].
  assert (HC' : forall i j, (i < 2)%nat -> (j < 2)%nat -> dat C [i; j] = if (i =? j)%nat then 5/8 else 1/8).
  { intros i j Li Lj. change (dat C [i; j]) with (entries C i j). rewrite HC by auto. destruct (two i Li) as [-> | ->], (two j Lj) as [-> | ->]; unfold mprod, mscale, entries, ca, cb, J, msum; cbn; lra. }
  exists C. split; auto. rewrite !HC' by lia. do 4 (split; [reflexivity|]). intros w1 w2 g S1 S2. destruct (F w1 w2 g S1 S2) as (y & g' & w & Ey & Ew & Sw & Hw). exists y, g', w. split; auto. split; [exact Ew|].
  pose proof (Hw [] 0%nat 0%nat ltac:(constructor) ltac:(lia) ltac:(lia)) as Q. cbn [app] in Q. rewrite Q. unfold mprod, mscale, entries, cb, J, msum, mone. cbn. lra.
Qed.
Print Assumptions C22_bridge.
Print Assumptions C22_moments.
Print Assumptions C22_covariance.
Print Assumptions C22_process.
Print Assumptions C22_outside.
