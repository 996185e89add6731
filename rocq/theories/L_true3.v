(** The sources with memory of the package respect what the base class requires. *)
From Coq Require Import List Arith Bool Lia ZArith Reals Lra Sorted.
From Verif Require Import Base BaseNum BaseArr BaseNd BaseIdx M_process M_source M_true S_process S_source S_true L_nd L_sdes L_process L_process2 L_source L_true L_true2 P_source.
Import ListNotations.
Local Open Scope R_scope.

Lemma aop_same {A B C} (f : A -> B -> C) a b s : shp a = s -> shp b = s -> exists c, aop f a b = Ok c /\ shp c = s /\ forall ix, inb s ix -> dat c ix = f (dat a ix) (dat b ix).
Proof.
  intros E1 E2. unfold aop. rewrite E1, E2, (bshape_can_l _ _ (can_refl _)). eexists. split; [reflexivity|]. split; auto. intros ix I. cbn [dat]. rewrite !bget_self by congruence. reflexivity.
Qed.
Lemma aop_same_shape {A B C} (f : A -> B -> C) a b s c : aop f a b = Ok c -> shp a = s -> shp b = s -> shp c = s /\ forall ix, inb s ix -> dat c ix = f (dat a ix) (dat b ix).
Proof. intros E E1 E2. destruct (aop_same f a b s E1 E2) as (c' & E' & H). assert (c' = c) by congruence. subst; auto. Qed.

Section Wiener.
Context {G : Type}.
Variable normal : list nat -> G -> res (arr R) * G.
Variable mvnormal : arr R -> list nat -> G -> res (arr R) * G.
Variable inv : arr R -> res (arr R).
Variables (paths : nat) (vshape : list nat) (corr : param R) (t0 : R).
Hypothesis N : normal_ok normal.
Let zs := vshape ++ [paths].
Lemma dw_shape c t dt g d g' : dw normal mvnormal paths vshape c t dt g = (Ok d, g') -> shp d = zs.
Proof. intro E. apply (wiener_scaled normal mvnormal paths vshape c (ascalar t) (ascalar dt) g [] d g' N) in E; [|reflexivity]. apply E. Qed.
Lemma wiener_bridge_shape w1 w2 t1 t2 s g w g' : wiener_bridge normal mvnormal inv paths vshape corr t0 w1 w2 t1 t2 s g = (Ok w, g') -> shp w1 = zs -> shp w2 = zs -> shp w = zs.
Proof.
  intros E E1 E2. unfold wiener_bridge in E. destruct (_ || _) in E; [|discriminate]. destruct (param_call corr) as [f|].
  - apply dbind_ok in E. destruct E as (ca & g1 & H1 & E). apply dres_ok in H1. destruct H1 as [H1 ->]. apply dbind_ok in E. destruct E as (cb & g1 & H2 & E). apply dres_ok in H2. destruct H2 as [H2 ->].
    apply dbind_ok in E. destruct E as (AB & g1 & H3 & E). apply dres_ok in H3. destruct H3 as [H3 ->]. apply dbind_ok in E. destruct E as (I & g1 & H4 & E). apply dres_ok in H4. destruct H4 as [H4 ->].
    apply dbind_ok in E. destruct E as (Zm & g1 & H5 & E). apply dres_ok in H5. destruct H5 as [H5 ->]. apply dbind_ok in E. destruct E as (C & g1 & H6 & E). apply dres_ok in H6. destruct H6 as [H6 ->].
    apply dbind_ok in E. destruct E as (M1 & g1 & H7 & E). apply dres_ok in H7. destruct H7 as [H7 ->]. unfold bridge_sum in E.
    apply dbind_ok in E. destruct E as (x & g1 & H8 & E). apply dres_ok in H8. destruct H8 as [H8 ->]. apply dbind_ok in E. destruct E as (y & g1 & H9 & E). apply dres_ok in H9. destruct H9 as [H9 ->].
    apply dbind_ok in E. destruct E as (xy & g1 & H10 & E). apply dres_ok in H10. destruct H10 as [H10 ->]. apply dbind_ok in E. destruct E as (dd & g1 & H11 & E). apply dres_ok in E. destruct E as [E ->].
    assert (Sd := dw_shape _ _ _ _ _ _ H11).
    (* the shape of C is (M, M) *)
    assert (SC : exists M v, vshape = v ++ [M] /\ shp C = [M; M]).
    { unfold mult in H8. destruct (shp Zm) as [|m [|n [|]]] eqn:SZ; try discriminate. rewrite E1 in H8. unfold zs in H8. rewrite rev_app_distr in H8. cbn [rev app] in H8. destruct (rev vshape) as [|M r] eqn:Rv; [discriminate|].
      destruct (n =? M)%nat eqn:NM; [|discriminate]. apply Nat.eqb_eq in NM. subst n. assert (V : vshape = rev r ++ [M]) by (rewrite <- (rev_involutive vshape), Rv; reflexivity). exists M, (rev r). split; auto.
      unfold matmul in H6. rewrite SZ in H6. cbn [amap shp] in H6. destruct (shp ca) as [|a0 [|a1 [|]]] eqn:Sa; try discriminate. destruct (M =? a0)%nat eqn:MA; [|discriminate]. injection H6 as <-. cbn [mat shp].
      unfold dw, wiener_call in H11. apply dbind_ok in H11. destruct H11 as ([tt dt] & g2 & Q1 & H11). apply dbind_ok in H11. destruct H11 as (z & g3 & Q2 & _). apply dbind_ok in Q2. destruct Q2 as (z1 & g4 & Q2 & _). cbn [param_call] in Q2.
      apply dbind_ok in Q2. destruct Q2 as (cov & g5 & Q2 & Q3). apply dres_ok in Q2. destruct Q2 as [Q2 ->]. unfold drop_paths in Q2. cbn [amap shp mat] in Q2. injection Q2 as <-.
      unfold multivariate_normal in Q3. cbn [amap shp mat] in Q3. rewrite V, last_last in Q3. destruct (list_eq_dec Nat.eq_dec [m; a1] [M; M]) as [E'|]; [auto|discriminate]. }
    destruct SC as (M & v & V & SC). unfold zs in *. rewrite V in *. rewrite <- app_assoc in *. cbn [app] in *.
    assert (SM : shp Zm = [M; M] /\ nth 0 (shp ca) 0%nat = M).
    { unfold matmul in H6. destruct (shp Zm) as [|m [|n [|]]] eqn:SZ; try discriminate. cbn [amap shp] in H6. destruct (shp ca) as [|a0 [|a1 [|]]] eqn:Sa; try discriminate. destruct (Nat.eqb_spec n a0); [|discriminate]. injection H6 as <-. cbn [mat shp] in SC. injection SC as -> ->.
      unfold mult in H8. rewrite SZ, E1, rev_app_distr in H8. cbn [rev app] in H8. destruct (Nat.eqb_spec n M); [|discriminate]. subst. auto. }
    destruct SM as [SM SA]. assert (SM1 : shp M1 = [M; M]). { cbn [amap shp] in H7. rewrite SA in H7. apply (aop_same_shape _ _ _ [M; M]) in H7; auto. apply H7. }
    assert (Sx : forall q u w0 : arr R, shp q = [M; M] -> shp w0 = v ++ [M; paths] -> mult q w0 = Ok u -> shp u = v ++ [M; paths]).
    { clear. intros q u w0 Q W H. unfold mult in H. rewrite Q, W, rev_app_distr in H. cbn [rev app] in H. rewrite Nat.eqb_refl in H. injection H as <-. cbn [shp]. rewrite rev_involutive. reflexivity. }
    assert (X1 := Sx _ _ _ SM E1 H8). assert (X2 := Sx _ _ _ SM1 E2 H9). apply (aop_same_shape _ _ _ (v ++ [M; paths])) in H10; auto. apply (aop_same_shape _ _ _ (v ++ [M; paths])) in E; auto. apply E. apply H10.
  - apply dbind_ok in E. destruct E as (dd & g1 & H1 & E). apply dw_shape in H1. apply dbind_ok in E. destruct E as (ww & g2 & H2 & E). apply dres_ok in H2. destruct H2 as [H2 ->]. apply dres_ok in E. destruct E as [E ->].
    apply (aop_same_shape _ _ _ zs) in H2; auto. apply (aop_same_shape _ _ _ zs) in E; auto; [apply E|apply H2].
Qed.
Lemma wiener_disciplined : disciplined (fun w => w) (wiener_outside normal mvnormal paths vshape corr t0) (wiener_inside normal mvnormal inv paths vshape corr t0) zs (fun _ _ => False).
Proof.
  constructor; try tauto.
  - intros z t s g z' zn g' E S. unfold wiener_outside in E. destruct (_ || _) in E; [|discriminate]. apply dbind_ok in E. destruct E as (c & g1 & _ & E). apply dbind_ok in E. destruct E as (dd & g2 & H1 & E). apply dw_shape in H1.
    apply dbind_ok in E. destruct E as (w' & g3 & H2 & E). apply dres_ok in H2. destruct H2 as [H2 ->]. apply dret_ok in E. destruct E as [E ->]. injection E as -> ->. split; auto. apply (aop_same_shape _ _ _ zs) in H2; auto. apply H2.
  - intros z1 z2 t1 t2 s g z1' o g' E S1 S2. unfold wiener_inside in E. apply dbind_ok in E. destruct E as (w & g1 & H1 & E). apply dret_ok in E. destruct E as [E ->]. injection E as -> ->. split; auto.
    destruct (nle t2 t0); eapply wiener_bridge_shape; eauto.
Qed.
End Wiener.

Section Poisson.
Context {G : Type}.
Variable poisson : arr R -> list nat -> G -> res (arr Z) * G.
Variable binomial : arr Z -> R -> list nat -> G -> res (arr Z) * G.
Variables (paths : nat) (vshape : list nat) (lam : param R).
Hypothesis Po : poisson_ok poisson.
Hypothesis Bi : binomial_ok binomial.
Let zs := vshape ++ [paths].
Lemma poisson_call_shape t dt g n g' : poisson_call poisson paths vshape lam (ascalar t) (ascalar dt) g = (Ok n, g') -> shp n = zs.
Proof. intro E. apply (C26_poisson poisson paths vshape lam (ascalar t) (ascalar dt) g [] n g' Po) in E; [apply E|reflexivity]. Qed.
Lemma all_equal_spec {B} (eqb : B -> B -> bool) (a b : arr B) s : shp a = s -> shp b = s -> all_equal eqb a b = Ok true <-> forall ix, inb s ix -> eqb (dat a ix) (dat b ix) = true.
Proof.
  intros E1 E2. unfold all_equal. destruct (aop_same eqb a b s E1 E2) as (c & -> & Sc & Hc). cbv beta iota delta [rbind]. unfold ravel. rewrite Sc.
  split.
  - intros H ix I. injection H as H. rewrite forallb_forall in H. rewrite <- Hc by auto. apply H. apply in_map. apply in_ndindex; auto.
  - intros H. f_equal. apply forallb_forall. intros x I. apply in_map_iff in I. destruct I as (ix & <- & I). apply in_ndindex in I. rewrite Hc by auto. auto.
Qed.
Lemma poisson_disciplined : disciplined (fun n => n) (poisson_outside poisson paths vshape lam) (poisson_inside binomial) zs (fun a b => all_equal Z.eqb a b = Ok true).
Proof.
  constructor.
  - intros z t s g z' zn g' E S. unfold poisson_outside in E. apply dbind_ok in E. destruct E as (dd & g2 & H1 & E). apply poisson_call_shape in H1.
    apply dbind_ok in E. destruct E as (w' & g3 & H2 & E). apply dres_ok in H2. destruct H2 as [H2 ->]. apply dret_ok in E. destruct E as [E ->]. injection E as -> ->. split; auto. apply (aop_same_shape _ _ _ zs) in H2; auto. apply H2.
  - intros z1 z2 t1 t2 s g z1' o g' E S1 S2. unfold poisson_inside in E. apply dbind_ok in E. destruct E as (b & g1 & H1 & E). apply dres_ok in H1. destruct H1 as [H1 ->]. destruct b.
    + apply dret_ok in E. destruct E as [E ->]. injection E as -> ->. auto.
    + apply dbind_ok in E. destruct E as (n & g1 & H2 & E). apply dres_ok in H2. destruct H2 as [H2 ->]. apply (aop_same_shape _ _ _ zs) in H2; auto. destruct H2 as [Sn _].
      apply dbind_ok in E. destruct E as (k & g1 & H3 & E). destruct (Bi _ _ _ _ _ _ H3 eq_refl) as [Sk _]. apply dbind_ok in E. destruct E as (n' & g2 & H4 & E). apply dres_ok in H4. destruct H4 as [H4 ->]. apply dret_ok in E. destruct E as [E ->]. injection E as -> ->. split; auto.
      destruct (aop_same_shape _ _ _ zs _ H4 S1 (eq_trans Sk Sn)) as [X _]; exact X.
  - intros z1 z2 t1 t2 s g E. unfold poisson_inside, dbind, dres. rewrite E. reflexivity.
  - intros a b E S1 S2. split; [congruence|]. intros ix I. rewrite S1 in I. apply Z.eqb_eq. eapply all_equal_spec; eauto.
Qed.
End Poisson.

Section Cpoisson.
Context {G : Type}.
Variable poisson : arr R -> list nat -> G -> res (arr Z) * G.
Variable binomial : arr Z -> R -> list nat -> G -> res (arr Z) * G.
Variable rvs : R -> nat -> nat -> G -> res (arr R) * G.
Variables (paths : nat) (vshape : list nat) (lam : param R) (dn_rtol : R).
Let zs := vshape ++ [paths].
Lemma veqb_R (x y : R) : veqb x y = true <-> x = y.
Proof. unfold veqb. rewrite andb_true_iff, !negb_true_iff, !nlt_R_false. split; [intros []; lra|intros ->; lra]. Qed.
Lemma cpoisson_disciplined : disciplined fst (cpoisson_out poisson binomial rvs paths vshape lam dn_rtol) (cpoisson_in poisson binomial paths vshape lam dn_rtol) zs (fun a b => all_equal veqb a b = Ok true).
Proof.
  constructor.
  - intros z t s g z' zn g' E S. unfold cpoisson_out, cpoisson_outside in E. apply dbind_ok in E. destruct E as ([[dj n] ys] & g2 & H1 & E).
    apply dbind_ok in E. destruct E as (j & g3 & H2 & E). apply dres_ok in H2. destruct H2 as [H2 ->].
    assert (Sd : shp dj = zs). { unfold cpoisson_call in H1. apply dbind_ok in H1. destruct H1 as ([t1 dt1] & g4 & H1 & H3). apply dres_ok in H1. destruct H1 as [H1 ->]. unfold broadcast2 in H1. cbn [ascalar shp bshape] in H1. injection H1 as <- <-.
      apply dbind_ok in H3. destruct H3 as (n1 & g5 & _ & H3). apply dbind_ok in H3. destruct H3 as (l & g6 & _ & H3). apply dret_ok in H3. destruct H3 as [H3 ->]. injection H3 as -> _ _. reflexivity. }
    apply (aop_same_shape _ _ _ zs) in H2; auto. destruct (nlt t s); apply dret_ok in E; destruct E as [E ->]; injection E as -> ->; split; auto; apply H2.
  - intros z1 z2 t1 t2 s g z1' o g' E S1 S2. unfold cpoisson_in, cpoisson_inside in E. apply dbind_ok in E. destruct E as (b & g1 & H1 & E). apply dres_ok in H1. destruct H1 as [H1 ->]. destruct b.
    + apply dret_ok in E. destruct E as [E ->]. injection E as -> ->. auto.
    + assert (SN : forall t g n g', true_poisson poisson binomial paths vshape lam dn_rtol (ascalar t) None g = (Ok n, g') -> shp n = zs).
      { clear. intros t g n g' E. unfold true_poisson, true_call, retrieve in E. apply dbind_ok in E. destruct E as (l & g1 & _ & E). apply dret_ok in E. destruct E as [-> _]. reflexivity. }
      apply dbind_ok in E. destruct E as (n1 & g1 & H2 & E). apply SN in H2. apply dbind_ok in E. destruct E as (ns & g2 & H3 & E). apply SN in H3. apply dbind_ok in E. destruct E as (n2 & g3 & H4 & E). apply SN in H4.
      apply dbind_ok in E. destruct E as (n21 & g4 & H5 & E). apply dres_ok in H5. destruct H5 as [H5 ->]. apply (aop_same_shape _ _ _ zs) in H5; auto. destruct H5 as [H5 _].
      apply dbind_ok in E. destruct E as (ns1 & g4 & H6 & E). apply dres_ok in H6. destruct H6 as [H6 ->]. apply dbind_ok in E. destruct E as (n2s & g4 & H7 & E). apply dres_ok in H7. destruct H7 as [H7 ->].
      apply dbind_ok in E. destruct E as (nmax & g4 & H8 & E). apply dres_ok in H8. destruct H8 as [H8 ->]. apply dbind_ok in E. destruct E as (yy1 & g4 & H9 & E).
      assert (Sy : shp yy1 = zs ++ [nmax]). { destruct (snd z1) as [y1|]; [|discriminate]. apply dres_ok in H9. destruct H9 as [H9 _]. unfold decode_y in H9. rewrite H8 in H9. cbv beta iota delta [rbind] in H9.
        destruct (forallb _ _) in H9; [|discriminate]. destruct (list_eq_dec _ _ _) in H9; [|discriminate]. injection H9 as <-. cbn [shp]. rewrite H5. reflexivity. }
      apply dbind_ok in E. destruct E as (y1' & g5 & H10 & E). apply dbind_ok in E. destruct E as (yn & g6 & H11 & E). apply dbind_ok in E. destruct E as (j & g7 & H12 & E). apply dres_ok in H12. destruct H12 as [H12 ->]. apply dret_ok in E. destruct E as [E ->]. injection E as -> ->.
      cbn [fst]. split; auto. apply (aop_same_shape _ _ _ zs) in H12; auto; [apply H12|]. cbn [shp]. rewrite Sy. apply removelast_last.
  - intros z1 z2 t1 t2 s g E. unfold cpoisson_in, cpoisson_inside, dbind at 1, dres at 1. rewrite E. reflexivity.
  - intros a b E S1 S2. split; [congruence|]. intros ix I. rewrite S1 in I. apply veqb_R. eapply all_equal_spec; eauto.
Qed.
End Cpoisson.
