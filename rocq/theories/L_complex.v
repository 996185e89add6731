(** Calculus of complex functions of a real variable, exponential and principal logarithm. *)
From Coq Require Import Reals Lra Lia.
From Coquelicot Require Import Coquelicot.
From Verif Require Import M_analytical S_chf.
Local Open Scope R_scope.

Lemma C_ext (a b : C) : fst a = fst b -> snd a = snd b -> a = b.
Proof. destruct a, b. simpl. intros -> ->. reflexivity. Qed.
Lemma cder_eq f t l l' : cder f t l -> l = l' -> cder f t l'.
Proof. intros H <-. exact H. Qed.
Lemma cder_ext f g t l : (forall s, f s = g s) -> cder f t l -> cder g t l.
Proof. intros E [H1 H2]. split; eapply is_derive_ext; eauto; intro s; simpl; rewrite E; reflexivity. Qed.
Lemma cder_ext_loc f g t l : locally t (fun s => f s = g s) -> cder f t l -> cder g t l.
Proof. intros E [H1 H2]. split; eapply is_derive_ext_loc; eauto; eapply filter_imp; [|exact E| |exact E]; intros s Q; rewrite Q; reflexivity. Qed.
Lemma cder_const c t : cder (fun _ => c) t 0%C.
Proof. split; apply (is_derive_const (K := R_AbsRing) (V := R_NormedModule)). Qed.
Lemma cder_id t : cder (fun s => RtoC s) t 1%C.
Proof. split; simpl; [apply (is_derive_id (K := R_AbsRing))|apply (is_derive_const (K := R_AbsRing) (V := R_NormedModule))]. Qed.
Lemma cder_plus f g t l m : cder f t l -> cder g t m -> cder (fun s => f s + g s)%C t (l + m)%C.
Proof. intros [F1 F2] [G1 G2]. split; simpl; apply (is_derive_plus (K := R_AbsRing) (V := R_NormedModule)); auto. Qed.
Lemma cder_opp f t l : cder f t l -> cder (fun s => - f s)%C t (- l)%C.
Proof. intros [F1 F2]. split; simpl; apply (is_derive_opp (K := R_AbsRing) (V := R_NormedModule)); auto. Qed.
Lemma cder_minus f g t l m : cder f t l -> cder g t m -> cder (fun s => f s - g s)%C t (l - m)%C.
Proof. intros F G. apply cder_plus; auto. apply cder_opp. auto. Qed.
Lemma dmult (f g : R -> R) (t l m : R) : is_derive f t l -> is_derive g t m -> is_derive (fun s => f s * g s) t (l * g t + f t * m).
Proof. intros F G. apply (is_derive_mult (K := R_AbsRing)); auto. intros; apply Rmult_comm. Qed.
Lemma dplus (f g : R -> R) (t l m : R) : is_derive f t l -> is_derive g t m -> is_derive (fun s => f s + g s) t (l + m).
Proof. intros F G. apply (is_derive_plus (K := R_AbsRing) (V := R_NormedModule)); auto. Qed.
Lemma dminus (f g : R -> R) (t l m : R) : is_derive f t l -> is_derive g t m -> is_derive (fun s => f s - g s) t (l - m).
Proof. intros F G. apply (is_derive_minus (K := R_AbsRing) (V := R_NormedModule)); auto. Qed.
Lemma dopp (f : R -> R) (t l : R) : is_derive f t l -> is_derive (fun s => - f s) t (- l).
Proof. intros F. apply (is_derive_opp (K := R_AbsRing) (V := R_NormedModule)); auto. Qed.
Lemma dcomp (f g : R -> R) (t l m : R) : is_derive g t l -> is_derive f (g t) m -> is_derive (fun s => f (g s)) t (l * m).
Proof. intros G F. apply (is_derive_comp (K := R_AbsRing) (V := R_NormedModule)); auto. Qed.
Lemma deq (f : R -> R) (t l m : R) : is_derive f t l -> l = m -> is_derive f t m.
Proof. intros F <-. exact F. Qed.
Lemma dexp (f : R -> R) (t l : R) : is_derive f t l -> is_derive (fun s => exp (f s)) t (l * exp (f t)).
Proof. intro F. eapply dcomp; [exact F|]. apply is_derive_Reals. apply derivable_pt_lim_exp. Qed.
Lemma dcos (f : R -> R) (t l : R) : is_derive f t l -> is_derive (fun s => cos (f s)) t (l * - sin (f t)).
Proof. intro F. eapply dcomp; [exact F|]. apply is_derive_Reals. apply derivable_pt_lim_cos. Qed.
Lemma dsin (f : R -> R) (t l : R) : is_derive f t l -> is_derive (fun s => sin (f s)) t (l * cos (f t)).
Proof. intro F. eapply dcomp; [exact F|]. apply is_derive_Reals. apply derivable_pt_lim_sin. Qed.
Lemma dln (f : R -> R) (t l : R) : 0 < f t -> is_derive f t l -> is_derive (fun s => ln (f s)) t (l * / f t).
Proof. intros P F. eapply dcomp; [exact F|]. apply is_derive_Reals. apply derivable_pt_lim_ln. auto. Qed.
Lemma datan (f : R -> R) (t l : R) : is_derive f t l -> is_derive (fun s => atan (f s)) t (l * / (1 + (f t)^2)).
Proof.
  intro F. eapply dcomp; [exact F|]. apply is_derive_Reals. apply derivable_pt_lim_atan.
Qed.
Lemma dsqrt (f : R -> R) (t l : R) : 0 < f t -> is_derive f t l -> is_derive (fun s => sqrt (f s)) t (l * / (2 * sqrt (f t))).
Proof. intros P F. eapply dcomp; [exact F|]. apply is_derive_Reals. apply derivable_pt_lim_sqrt. auto. Qed.
Lemma dinv (f : R -> R) (t l : R) : f t <> 0 -> is_derive f t l -> is_derive (fun s => / f s) t (- l / (f t)^2).
Proof. intros P F. apply is_derive_inv; auto. Qed.

Lemma cder_mult f g t l m : cder f t l -> cder g t m -> cder (fun s => f s * g s)%C t (l * g t + f t * m)%C.
Proof.
  intros [F1 F2] [G1 G2]. split; simpl.
  - eapply deq; [apply dminus; apply dmult; eauto|]. simpl. ring.
  - eapply deq; [apply dplus; apply dmult; eauto|]. simpl. ring.
Qed.
Lemma cder_scal c f t l : cder f t l -> cder (fun s => c * f s)%C t (c * l)%C.
Proof. intro F. eapply cder_eq; [apply cder_mult; [apply cder_const|exact F]|]. cbv beta. ring. Qed.
Lemma cder_exp f t l : cder f t l -> cder (fun s => cexp (f s)) t (l * cexp (f t))%C.
Proof.
  intros [F1 F2]. split; simpl.
  - eapply deq; [apply dmult; [apply dexp; eauto|apply dcos; eauto]|]. simpl. ring.
  - eapply deq; [apply dmult; [apply dexp; eauto|apply dsin; eauto]|]. simpl. ring.
Qed.
Lemma sq_pos (z : C) : z <> 0%C -> 0 < fst z ^2 + snd z ^2.
Proof.
  intro N. destruct z as [x y]. simpl. assert (x <> 0 \/ y <> 0).
  { destruct (Req_dec x 0) as [X|X]; auto. destruct (Req_dec y 0) as [Y|Y]; auto. exfalso. apply N. rewrite X, Y. reflexivity. }
  pose proof (pow2_ge_0 x). pose proof (pow2_ge_0 y). destruct H as [H|H]; [pose proof (pow2_gt_0 x H)|pose proof (pow2_gt_0 y H)]; simpl in *; lra.
Qed.
Lemma cder_inv (f : R -> C) t l : f t <> 0%C -> cder f t l -> cder (fun s => / f s)%C t (- l / (f t * f t))%C.
Proof.
  intros N [F1 F2]. pose proof (sq_pos _ N) as P.
  assert (D : is_derive (fun s => fst (f s) ^2 + snd (f s)^2) t (2*fst (f t)*fst l + 2*snd (f t)*snd l)).
  { eapply is_derive_ext; [|eapply deq; [apply dplus; [eapply (dmult (fun s => fst (f s)) (fun s => fst (f s))); eauto|
      eapply (dmult (fun s => snd (f s)) (fun s => snd (f s))); eauto]|]].
    - intro s. simpl. ring.
    - simpl. ring. }
  assert (NM : fst (f t * f t)%C ^2 + snd (f t * f t)%C ^2 = (fst (f t)^2 + snd (f t)^2)^2) by (simpl; ring).
  unfold Cmult in NM. cbn [fst snd] in NM. set (n := fst (f t)^2 + snd (f t)^2) in *.
  split.
  - change (is_derive (fun s => fst (f s) * / (fst (f s)^2 + snd (f s)^2)) t (fst (- l / (f t * f t))%C)).
    eapply deq; [apply dmult; [exact F1|apply dinv; [|exact D]]|].
    + fold n. lra.
    + fold n. unfold Cdiv, Cinv, Cmult, Copp. cbn [fst snd]. rewrite NM. unfold n. field. apply Rgt_not_eq. exact P.
  - change (is_derive (fun s => - snd (f s) * / (fst (f s)^2 + snd (f s)^2)) t (snd (- l / (f t * f t))%C)).
    eapply deq; [apply dmult; [apply dopp; exact F2|apply dinv; [|exact D]]|].
    + fold n. lra.
    + fold n. unfold Cdiv, Cinv, Cmult, Copp. cbn [fst snd]. rewrite NM. unfold n. field. apply Rgt_not_eq. exact P.
Qed.
Lemma cder_div (f g : R -> C) t l m : g t <> 0%C -> cder f t l -> cder g t m -> cder (fun s => f s / g s)%C t ((l * g t - f t * m) / (g t * g t))%C.
Proof.
  intros N F G. eapply cder_eq; [apply cder_mult; [exact F|apply cder_inv; eauto]|]. cbv beta. field. auto.
Qed.
Lemma cder_cont f t l : cder f t l -> continuous (fun s => fst (f s)) t /\ continuous (fun s => snd (f s)) t.
Proof. intros [F1 F2]. split; apply (ex_derive_continuous (K := R_AbsRing) (V := R_NormedModule)); eexists; eauto. Qed.

(** *** argument and logarithm *)
Lemma Cmod_polar r th : 0 < r -> Cmod (r * cos th, r * sin th) = r.
Proof.
  intro P. unfold Cmod. simpl. replace (_ + _) with (r*r*(Rsqr (sin th) + Rsqr (cos th))) by (unfold Rsqr; ring).
  rewrite sin2_cos2, Rmult_1_r. apply sqrt_square. lra.
Qed.
Lemma carg_polar r th : 0 < r -> - PI < th < PI -> carg (r * cos th, r * sin th) = th.
Proof.
  intros P B. unfold carg. rewrite Cmod_polar by auto. cbn [fst snd]. replace (r * cos th / r) with (cos th) by (field; lra).
  destruct (Rlt_dec (r * sin th) 0) as [L|L].
  - assert (th < 0). { apply Rnot_le_lt. intro H. apply (Rlt_not_le _ _ L). apply Rmult_le_pos; [lra|]. apply sin_ge_0; lra. }
    rewrite <- cos_neg, acos_cos by lra. ring.
  - assert (0 <= th). { apply Rnot_lt_le. intro H. apply L. assert (0 < sin (- th)) by (apply sin_gt_0; lra). rewrite sin_neg in H0. nra. }
    rewrite acos_cos by lra. reflexivity.
Qed.
Lemma Cmod_sq (z : C) : Cmod z * Cmod z = fst z ^2 + snd z ^2.
Proof. unfold Cmod. apply sqrt_sqrt. pose proof (pow2_ge_0 (fst z)). pose proof (pow2_ge_0 (snd z)). lra. Qed.
Lemma polar (z : C) : z <> 0%C -> z = (Cmod z * cos (carg z), Cmod z * sin (carg z)).
Proof.
  intro N. assert (P : 0 < Cmod z) by (apply Cmod_gt_0; auto). pose proof (Cmod_sq z) as Q.
  assert (B : -1 <= fst z / Cmod z <= 1).
  { pose proof (Rmax_Cmod z) as M. pose proof (Rmax_l (Rabs (fst z)) (Rabs (snd z))). pose proof (Rle_abs (fst z)). pose proof (Rle_abs (- fst z)). rewrite Rabs_Ropp in *.
    split; [apply (Rmult_le_reg_r (Cmod z)); auto|apply (Rmult_le_reg_r (Cmod z)); auto]; replace (fst z / Cmod z * Cmod z) with (fst z) by (field; lra); lra. }
  assert (S : Cmod z * sqrt (1 - Rsqr (fst z / Cmod z)) = Rabs (snd z)).
  { rewrite <- (sqrt_Rsqr_abs (snd z)). rewrite <- (sqrt_square (Cmod z)) at 1 by lra. rewrite <- sqrt_mult_alt by nra. f_equal.
    unfold Rsqr. field_simplify; [|lra]. simpl in *. lra. }
  apply C_ext; cbn [fst snd]; unfold carg; destruct (Rlt_dec (snd z) 0) as [L|L].
  - rewrite cos_neg, cos_acos by auto. field. lra.
  - rewrite cos_acos by auto. field. lra.
  - rewrite sin_neg, sin_acos by auto. rewrite Ropp_mult_distr_r_reverse, S. rewrite Rabs_left by auto. ring.
  - rewrite sin_acos by auto. rewrite S. rewrite Rabs_pos_eq by lra. ring.
Qed.
Lemma slit_ne (z : C) : slit z -> z <> 0%C.
Proof. intros [H|H] ->; simpl in H; lra. Qed.
Lemma carg_slit (z : C) : slit z -> - PI < carg z < PI.
Proof.
  intro H. pose proof (slit_ne z H) as N. pose proof (polar z N) as E. assert (P : 0 < Cmod z) by (apply Cmod_gt_0; auto).
  assert (B : - PI <= carg z <= PI).
  { unfold carg. pose proof (acos_bound (fst z / Cmod z)). pose proof PI_RGT_0. destruct (Rlt_dec (snd z) 0); lra. }
  assert (NP : carg z <> PI). { intro Q. rewrite Q, cos_PI, sin_PI in E. rewrite E in H. destruct H as [H|H]; simpl in H; lra. }
  assert (NM : carg z <> - PI). { intro Q. rewrite Q, cos_neg, sin_neg, cos_PI, sin_PI in E. rewrite E in H. destruct H as [H|H]; simpl in H; lra. }
  lra.
Qed.
Lemma cexp_clog (z : C) : z <> 0%C -> cexp (clog z) = z.
Proof.
  intro N. rewrite (polar z N) at 2. unfold cexp, clog. cbn [fst snd]. rewrite exp_ln by (apply Cmod_gt_0; auto). reflexivity.
Qed.
Lemma cloc1 (f : R -> R) t (P : R -> Prop) : continuous f t -> locally (f t) P -> locally t (fun s => P (f s)).
Proof. intros H Q. exact (H P Q). Qed.
Lemma near (x : R) (e : R) : 0 < e -> locally x (fun y => Rabs (y - x) < e).
Proof. intro E. exists (mkposreal e E). intros y H. exact H. Qed.

Lemma cder_log (f : R -> C) t l : slit (f t) -> cder f t l -> cder (fun s => clog (f s)) t (l / f t)%C.
Proof.
  intros SL F. pose proof (slit_ne _ SL) as N. pose proof (carg_slit _ SL) as B.
  set (V := fun s => (f s / f t)%C).
  assert (DV : cder V t (l / f t)%C). { unfold V. eapply cder_eq; [apply cder_div; [exact N|exact F|apply cder_const]|]. cbv beta. field. auto. }
  assert (V1 : V t = 1%C) by (unfold V; field; auto).
  destruct (cder_cont _ _ _ DV) as [CV1 CV2].
  set (th := fun s => atan (snd (V s) / fst (V s))).
  assert (DT : is_derive th t (snd (l / f t)%C)).
  { destruct DV as [D1 D2]. unfold th. eapply deq; [apply datan; eapply (dmult (fun s => snd (V s)) (fun s => / fst (V s))); [exact D2|apply dinv; [|exact D1]]|].
    - rewrite V1. simpl. lra.
    - cbv beta. rewrite V1. generalize (l / f t)%C. intro q. simpl. field. }
  assert (T0 : th t = 0) by (unfold th; rewrite V1; simpl; unfold Rdiv; rewrite Rmult_0_l; apply atan_0).
  set (w := Rmin (PI - carg (f t)) (PI + carg (f t))). assert (W : 0 < w) by (apply Rmin_glb_lt; lra).
  assert (LT : locally t (fun s => Rabs (th s - th t) < w)).
  { apply (cloc1 th t (fun y => Rabs (y - th t) < w)); [|apply near; auto].
    apply (ex_derive_continuous (K := R_AbsRing) (V := R_NormedModule)). eexists; eauto. }
  assert (LP : locally t (fun s => 0 < fst (V s))).
  { eapply filter_imp; [|apply (cloc1 _ t (fun y => Rabs (y - fst (V t)) < 1/2) CV1); apply near; lra].
    intros s H. rewrite V1 in H. change (fst (RtoC 1)) with 1 in H. apply Rabs_def2 in H. lra. }
  apply cder_ext_loc with (fun s => (ln (Cmod (f t)) + ln (Cmod (V s)), carg (f t) + th s)).
  - apply (filter_imp (fun s => Rabs (th s - th t) < w /\ 0 < fst (V s))); [|apply filter_and; auto].
    intros s [H P]. rewrite T0, Rminus_0_r in H. apply Rabs_def2 in H.
    pose proof (Rmin_l (PI - carg (f t)) (PI + carg (f t))). pose proof (Rmin_r (PI - carg (f t)) (PI + carg (f t))). fold w in H0, H1.
    assert (NV : V s <> 0%C) by (intro Z; rewrite Z in P; simpl in P; lra).
    assert (MV : 0 < Cmod (V s)) by (apply Cmod_gt_0; auto). assert (MF : 0 < Cmod (f t)) by (apply Cmod_gt_0; auto).
    assert (EV : V s = (Cmod (V s) * cos (th s), Cmod (V s) * sin (th s))).
    { assert (R1 : 0 < sqrt (1 + (snd (V s) / fst (V s))²)) by (apply sqrt_lt_R0; pose proof (Rle_0_sqr (snd (V s) / fst (V s))); lra).
      assert (EM : Cmod (V s) = fst (V s) * sqrt (1 + (snd (V s) / fst (V s))²)).
      { unfold Cmod. rewrite <- (sqrt_square (fst (V s))) at 2 by lra. rewrite <- sqrt_mult_alt by nra. f_equal. unfold Rsqr. field. lra. }
      apply C_ext; cbn [fst snd]; unfold th; [rewrite cos_atan|rewrite sin_atan]; rewrite EM; field; lra. }
    assert (EF : f s = (f t * V s)%C) by (unfold V; field; auto).
    assert (E : f s = (Cmod (f t) * Cmod (V s) * cos (carg (f t) + th s), Cmod (f t) * Cmod (V s) * sin (carg (f t) + th s))).
    { rewrite EF, (polar (f t) N) at 1. rewrite EV at 1. rewrite cos_plus, sin_plus. unfold Cmult. cbn [fst snd]. apply C_ext; cbn [fst snd]; ring. }
    unfold clog. rewrite E. rewrite carg_polar, Cmod_polar by (try (apply Rmult_lt_0_compat; auto); lra).
    rewrite ln_mult by auto. reflexivity.
  - destruct DV as [D1 D2]. split; cbn [fst snd].
    + eapply deq; [apply dplus; [apply (is_derive_const (K := R_AbsRing) (V := R_NormedModule))|]|].
      * unfold Cmod. apply dln; [rewrite V1; simpl; replace (_ + _) with 1 by ring; rewrite sqrt_1; lra|].
        apply dsqrt; [rewrite V1; simpl; lra|]. apply dplus.
        -- eapply is_derive_ext; [|eapply (dmult (fun s => fst (V s)) (fun s => fst (V s))); eauto]. intro s. simpl. ring.
        -- eapply is_derive_ext; [|eapply (dmult (fun s => snd (V s)) (fun s => snd (V s))); eauto]. intro s. simpl. ring.
      * cbv beta. rewrite V1. generalize (l / f t)%C. intro q. unfold zero. simpl. replace (1 * (1 * 1) + 0 * (0 * 1)) with 1 by ring. rewrite sqrt_1. field.
    + eapply deq; [apply dplus; [apply (is_derive_const (K := R_AbsRing) (V := R_NormedModule))|exact DT]|]. generalize (l / f t)%C. intro q. unfold zero. simpl. ring.
Qed.
