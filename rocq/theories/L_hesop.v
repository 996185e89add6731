(** Lemmas on means of functions of two independent normal variates, and on the Euler scheme of the Heston process, as an
    operator on functions of the logarithm of the price and of its variance. *)
From Coq Require Import Reals Lra Psatz Lia Classical.
From Coquelicot Require Import Coquelicot.
From Verif Require Import S_rv S_dist L_gauss L_gauss2 L_line L_gop L_cirop.
Local Open Scope R_scope.

(** *** functions that grow as exponentials at most *)
Definition joint (F : R -> R -> R) (p : R * R) : R := F (fst p) (snd p).
Definition tame2 (F : R -> R -> R) : Prop :=
  (forall p, continuous (joint F) p) /\ exists C c, 0 <= C /\ 0 <= c /\ forall x y, Rabs (F x y) <= C * exp (c * (Rabs x + Rabs y)).
Lemma exp_ge1 a : 0 <= a -> 1 <= exp a.
Proof. intro H. assert (X := exp_ineq1_le a). lra. Qed.
Lemma tame2_ext F G : (forall x y, F x y = G x y) -> tame2 F -> tame2 G.
Proof.
  intros E (H & C & c & A & B & D). split.
  - intro p. apply (continuous_ext (joint F) (joint G)); auto. intro q. apply E.
  - exists C, c. repeat split; auto. intros x y. rewrite <- E. apply D.
Qed.
Lemma tame2_x f : tame f -> tame2 (fun x _ => f x).
Proof.
  intros (H & C & c & A & B & D). split.
  - intro p. unfold joint. apply (continuous_comp fst f); [apply continuous_fst|apply H].
  - exists (2*C), c. split; [lra|]. split; [auto|]. intros x y. eapply Rle_trans; [apply D|]. destruct (ch_abs c x B) as [_ E].
    assert (X := exp_le (c*Rabs x) (c*(Rabs x + Rabs y)) ltac:(assert (Z := Rabs_pos y); nra)). nra.
Qed.
Lemma tame2_y f : tame f -> tame2 (fun _ y => f y).
Proof.
  intros (H & C & c & A & B & D). split.
  - intro p. unfold joint. apply (continuous_comp snd f); [apply continuous_snd|apply H].
  - exists (2*C), c. split; [lra|]. split; [auto|]. intros x y. eapply Rle_trans; [apply D|]. destruct (ch_abs c y B) as [_ E].
    assert (X := exp_le (c*Rabs y) (c*(Rabs x + Rabs y)) ltac:(assert (Z := Rabs_pos x); nra)). nra.
Qed.
Lemma tame2_const a : tame2 (fun _ _ => a).
Proof. exact (tame2_x (fun _ => a) (tame_const a)). Qed.
Lemma tame2_plus F G : tame2 F -> tame2 G -> tame2 (fun x y => F x y + G x y).
Proof.
  intros (H & C & c & A & B & D) (H' & C' & c' & A' & B' & D'). split; [intro p; apply (continuous_plus (V := R_NormedModule) (joint F) (joint G)); auto|].
  exists (C + C'), (c + c'). split; [lra|]. split; [lra|]. intros x y. eapply Rle_trans; [apply Rabs_triang|]. set (s := Rabs x + Rabs y). assert (S : 0 <= s) by (assert (X := Rabs_pos x); assert (Y := Rabs_pos y); unfold s; lra).
  assert (X := exp_le (c*s) ((c + c')*s) ltac:(nra)). assert (X' := exp_le (c'*s) ((c + c')*s) ltac:(nra)). specialize (D x y). specialize (D' x y). fold s in D, D'. nra.
Qed.
Lemma tame2_mult F G : tame2 F -> tame2 G -> tame2 (fun x y => F x y * G x y).
Proof.
  intros (H & C & c & A & B & D) (H' & C' & c' & A' & B' & D'). split; [intro p; apply (continuous_mult (K := R_AbsRing) (joint F) (joint G)); auto|].
  exists (C*C'), (c + c'). split; [nra|]. split; [lra|]. intros x y. rewrite Rabs_mult. set (s := Rabs x + Rabs y).
  replace (C*C'*exp ((c + c')*s)) with ((C*exp (c*s))*(C'*exp (c'*s))) by (rewrite Rmult_plus_distr_r, exp_plus; ring). apply Rmult_le_compat; try apply Rabs_pos; [apply D|apply D'].
Qed.
Lemma tame2_scal a F : tame2 F -> tame2 (fun x y => a * F x y).
Proof. intro H. apply (tame2_mult (fun _ _ => a) F); auto. apply tame2_const. Qed.
Lemma tame2_minus F G : tame2 F -> tame2 G -> tame2 (fun x y => F x y - G x y).
Proof. intros H K. apply (tame2_ext (fun x y => F x y + (-1) * G x y)); [intros; ring|]. apply tame2_plus; auto. apply tame2_scal; auto. Qed.

Lemma near_fst {U V : UniformSpace} (p : U*V) (P : U -> Prop) : locally (fst p) P -> locally p (fun q => P (fst q)).
Proof. intros [e H]. exists e. intros q [B _]. apply H. exact B. Qed.
Lemma near_snd {U V : UniformSpace} (p : U*V) (P : V -> Prop) : locally (snd p) P -> locally p (fun q => P (snd q)).
Proof. intros [e H]. exists e. intros q [_ B]. apply H. exact B. Qed.

(** *** means *)
Definition EN2 (V : R -> R -> R) : R := EN (fun z => EN (V z)).
Lemma exp_abs_ch b z : 0 <= b -> exp (b * Rabs z) <= ch b z.
Proof. apply ch_abs. Qed.
Lemma tame_abs C c f : 0 <= C -> 0 <= c -> (forall z, continuous f z) -> (forall z, Rabs (f z) <= C*exp (c*Rabs z)) -> tame f.
Proof.
  intros A B H D. split; auto. exists C, c. repeat split; auto. intro z. eapply Rle_trans; [apply D|]. apply Rmult_le_compat_l; auto. apply exp_abs_ch; auto.
Qed.
Lemma EN_bound C c f : 0 <= C -> 0 <= c -> (forall z, continuous f z) -> (forall z, Rabs (f z) <= C*exp (c*Rabs z)) -> Rabs (EN f) <= 2*C*exp (c*c/2).
Proof.
  intros A B H D. assert (TC : tame (ch c)) by (split; [apply ch_cont|]; exists 1, c; repeat split; auto; try lra; intro y; rewrite Rabs_pos_eq by (left; apply ch_pos); lra).
  eapply Rle_trans; [apply (EN_abs f (fun z => C*ch c z))|].
  - apply (tame_abs C c); auto.
  - apply tame_scal; auto.
  - intro z. eapply Rle_trans; [apply D|]. apply Rmult_le_compat_l; auto. apply exp_abs_ch; auto.
  - rewrite EN_scal by auto. rewrite (EN_eq _ _ (mean_ch c)). right. ring.
Qed.
Lemma cont_second V z z' : (forall p, continuous (joint V) p) -> continuous (V z) z'.
Proof.
  intro H. apply (continuous_comp_2 (fun _ : R => z) (fun t : R => t) V z'); [apply continuous_const|apply continuous_id|]. apply H.
Qed.
Lemma tame2_inner V z : tame2 V -> tame (V z).
Proof.
  intros (H & C & c & A & B & D). apply (tame_abs (C*exp (c*Rabs z)) c); auto.
  - assert (X := exp_pos (c*Rabs z)). nra.
  - intro z'. apply cont_second; auto.
  - intro z'. eapply Rle_trans; [apply D|]. rewrite Rmult_plus_distr_l, exp_plus. right. ring.
Qed.
Lemma tame2_outer V : tame2 V -> tame (fun z => EN (V z)).
Proof.
  intros TV. destruct TV as (H & C & c & A & B & D). apply (tame_abs (2*C*exp (c*c/2)) c); auto.
  - assert (X := exp_pos (c*c/2)). nra.
  - intro z0. apply (EN_continuous (X := R_UniformSpace) V z0 (C*exp (c*(Rabs z0 + 1))) c B).
    + intro z. apply H.
    + intros x z. apply cont_second; auto.
    + generalize (near_abs z0). apply filter_imp. intros x Hx z. eapply Rle_trans; [apply D|]. rewrite Rmult_plus_distr_l, exp_plus, <- Rmult_assoc. apply Rmult_le_compat.
      * assert (X := exp_pos (c*Rabs x)). nra.
      * left. apply exp_pos.
      * apply Rmult_le_compat_l; auto. apply exp_le. nra.
      * apply exp_abs_ch; auto.
  - intro z. eapply Rle_trans; [apply (EN_bound (C*exp (c*Rabs z)) c)|].
    + assert (X := exp_pos (c*Rabs z)). nra.
    + auto.
    + intro z'. apply cont_second; auto.
    + intro z'. eapply Rle_trans; [apply D|]. rewrite Rmult_plus_distr_l, exp_plus. right. ring.
    + right. ring.
Qed.
Lemma EN2_ext V W : (forall z z', V z z' = W z z') -> EN2 V = EN2 W.
Proof. intro E. apply EN_ext. intro z. apply EN_ext. apply E. Qed.
Lemma EN2_plus V W : tame2 V -> tame2 W -> EN2 (fun z z' => V z z' + W z z') = EN2 V + EN2 W.
Proof.
  intros TV TW. unfold EN2. rewrite <- (EN_plus (fun z => EN (V z)) (fun z => EN (W z))) by (apply tame2_outer; auto).
  apply EN_ext. intro z. apply (EN_plus (V z) (W z)); apply tame2_inner; auto.
Qed.
Lemma EN2_scal a V : tame2 V -> EN2 (fun z z' => a * V z z') = a * EN2 V.
Proof.
  intro TV. unfold EN2. rewrite <- (EN_scal a (fun z => EN (V z))) by (apply tame2_outer; auto). apply EN_ext. intro z. apply (EN_scal a (V z)). apply tame2_inner; auto.
Qed.
Lemma EN2_const a : EN2 (fun _ _ => a) = a.
Proof. unfold EN2. rewrite (EN_ext _ (fun _ => a)) by (intro; apply EN_const). apply EN_const. Qed.
Lemma EN2_le V W : tame2 V -> tame2 W -> (forall z z', V z z' <= W z z') -> EN2 V <= EN2 W.
Proof.
  intros TV TW H. apply (EN_le (fun z => EN (V z)) (fun z => EN (W z))); [apply tame2_outer; auto|apply tame2_outer; auto|]. intro z. apply EN_le; [apply tame2_inner; auto|apply tame2_inner; auto|apply H].
Qed.
Lemma EN2_abs V W : tame2 V -> tame2 W -> (forall z z', Rabs (V z z') <= W z z') -> Rabs (EN2 V) <= EN2 W.
Proof.
  intros TV TW H. apply (EN_abs (fun z => EN (V z)) (fun z => EN (W z))); [apply tame2_outer; auto|apply tame2_outer; auto|]. intro z. apply EN_abs; [apply tame2_inner; auto|apply tame2_inner; auto|apply H].
Qed.
Lemma tame2_aff F a b b' c d : tame2 F -> tame2 (fun z z' => F (a + b*z + b'*z') (c + d*z)).
Proof.
  intros (H & C & e & A & B & D). split.
  - intros [z z']. unfold joint. cbn [fst snd].
    apply (continuous_comp_2 (fun p : R*R => a + b*fst p + b'*snd p) (fun p : R*R => c + d*fst p) F); [| |apply (H (_, _))].
    + apply (continuous_plus (V := R_NormedModule) (fun p : R*R => a + b*fst p) (fun p : R*R => b'*snd p)).
      * apply (continuous_comp fst (fun t => a + b*t)); [apply continuous_fst|]. apply (ex_derive_continuous (V := R_NormedModule)). auto_derive. auto.
      * apply (continuous_comp snd (fun t => b'*t)); [apply continuous_snd|]. apply (ex_derive_continuous (V := R_NormedModule)). auto_derive. auto.
    + apply (continuous_comp fst (fun t => c + d*t)); [apply continuous_fst|]. apply (ex_derive_continuous (V := R_NormedModule)). auto_derive. auto.
  - exists (C*exp (e*(Rabs a + Rabs c))), (e*(Rabs b + Rabs b' + Rabs d)). assert (X := exp_pos (e*(Rabs a + Rabs c))). assert (Pb := Rabs_pos b). assert (Pb' := Rabs_pos b'). assert (Pd := Rabs_pos d).
    split; [nra|]. split; [nra|]. intros z z'. eapply Rle_trans; [apply D|]. rewrite Rmult_assoc, <- exp_plus. apply Rmult_le_compat_l; auto. apply exp_le.
    assert (T1 : Rabs (a + b*z + b'*z') <= Rabs a + Rabs b*Rabs z + Rabs b'*Rabs z'). { eapply Rle_trans; [apply Rabs_triang|]. rewrite (Rabs_mult b'). apply Rplus_le_compat_r. eapply Rle_trans; [apply Rabs_triang|]. rewrite Rabs_mult. lra. }
    assert (T2 : Rabs (c + d*z) <= Rabs c + Rabs d*Rabs z). { eapply Rle_trans; [apply Rabs_triang|]. rewrite Rabs_mult. lra. }
    assert (Pz := Rabs_pos z). assert (Pz' := Rabs_pos z').
    assert (S : Rabs (a + b*z + b'*z') + Rabs (c + d*z) <= Rabs a + Rabs c + (Rabs b + Rabs b' + Rabs d)*(Rabs z + Rabs z')) by nra.
    replace (e*(Rabs a + Rabs c) + e*(Rabs b + Rabs b' + Rabs d)*(Rabs z + Rabs z')) with (e*(Rabs a + Rabs c + (Rabs b + Rabs b' + Rabs d)*(Rabs z + Rabs z'))) by ring. apply Rmult_le_compat_l; auto.
Qed.

(** *** means of functions of a step *)
Section Step.
Variables (F : R -> R -> R) (a c s : R -> R) (b b' d al be : R).
Hypothesis TF : tame2 F.
Hypothesis CA : forall y, continuous a y.
Hypothesis CC : forall y, continuous c y.
Hypothesis CS : forall y, continuous s y.
Hypothesis AL : 0 <= al.
Hypothesis BE : 0 <= be.
Hypothesis HA : forall y, Rabs (a y) <= al + be*Rabs y.
Hypothesis HC : forall y, Rabs (c y) <= al + be*Rabs y.
Hypothesis HS : forall y, s y * s y <= al + be*Rabs y.
Definition stp (p : R*R) (z z' : R) : R := F (fst p + a (snd p) + (b*s (snd p))*z + (b'*s (snd p))*z') (c (snd p) + (d*s (snd p))*z).
Definition stpm (p : R*R) : R := EN2 (stp p).
Lemma stp_tame p : tame2 (stp p).
Proof using TF. apply tame2_aff. exact TF. Qed.
Lemma stp_cont (q : R*R*R*R) : continuous (fun q : R*R*R*R => stp (fst (fst q)) (snd (fst q)) (snd q)) q.
Proof using TF CA CC CS.
  assert (C1 : forall q : R*R*R*R, continuous (fun q : R*R*R*R => snd (fst (fst q))) q).
  { intro x. apply (continuous_comp (fun q : R*R*R*R => fst (fst q)) snd); [|apply continuous_snd]. apply (continuous_comp fst fst); apply continuous_fst. }
  assert (C0 : forall q : R*R*R*R, continuous (fun q : R*R*R*R => fst (fst (fst q))) q).
  { intro x. apply (continuous_comp (fun q : R*R*R*R => fst (fst q)) fst); [|apply continuous_fst]. apply (continuous_comp fst fst); apply continuous_fst. }
  assert (C2 : forall q : R*R*R*R, continuous (fun q : R*R*R*R => snd (fst q)) q) by (intro x; apply (continuous_comp fst snd); [apply continuous_fst|apply continuous_snd]).
  assert (CM : forall (f g : R*R*R*R -> R) q, continuous f q -> continuous g q -> continuous (fun q => f q * g q) q) by (intros f g x X Y; apply (continuous_mult (K := R_AbsRing) f g); auto).
  assert (CP : forall (f g : R*R*R*R -> R) q, continuous f q -> continuous g q -> continuous (fun q => f q + g q) q) by (intros f g x X Y; apply (continuous_plus (V := R_NormedModule) f g); auto).
  assert (CY : forall f : R -> R, (forall y, continuous f y) -> forall q : R*R*R*R, continuous (fun q : R*R*R*R => f (snd (fst (fst q)))) q) by (intros f X x; apply (continuous_comp (fun q : R*R*R*R => snd (fst (fst q))) f); auto).
  unfold stp. apply (continuous_comp_2 (fun q : R*R*R*R => fst (fst (fst q)) + a (snd (fst (fst q))) + (b*s (snd (fst (fst q))))*snd (fst q) + (b'*s (snd (fst (fst q))))*snd q)
    (fun q : R*R*R*R => c (snd (fst (fst q))) + (d*s (snd (fst (fst q))))*snd (fst q)) F); [| |apply (proj1 TF (_, _))].
  - apply CP; [apply CP; [apply CP; [apply C0|apply CY, CA]|]|]; apply CM; try (apply CM; [apply continuous_const|apply CY, CS]); [apply C2|apply continuous_snd].
  - apply CP; [apply CY, CC|]. apply CM; [|apply C2]. apply CM; [apply continuous_const|apply CY, CS].
Qed.
(** a bound that holds close to any point *)
Lemma stp_bound : exists C e, 0 <= C /\ 0 <= e /\ forall p z z', let M := al + be*Rabs (snd p) in
  Rabs (stp p z z') <= C*exp (e*(Rabs (fst p) + M)) * exp (e*sqrt M*(Rabs z)) * exp (e*sqrt M*Rabs z').
Proof using TF AL BE HA HC HS.
  destruct TF as (_ & C & e & A & B & D). set (w := 2 + Rabs b + Rabs b' + Rabs d). assert (Pb := Rabs_pos b). assert (Pb' := Rabs_pos b'). assert (Pd := Rabs_pos d). assert (W : 2 <= w) by (unfold w; lra).
  exists C, (e*w). split; [auto|]. split; [nra|]. intros [x y] z z' M. unfold stp. cbn [fst snd] in *. eapply Rle_trans; [apply D|].
  replace (C*exp (e*w*(Rabs x + M))*exp (e*w*sqrt M*Rabs z)*exp (e*w*sqrt M*Rabs z')) with (C*exp (e*w*(Rabs x + M) + (e*w*sqrt M*Rabs z + e*w*sqrt M*Rabs z'))) by (rewrite !exp_plus; ring). apply Rmult_le_compat_l; auto. apply exp_le.
  assert (M0 : 0 <= M) by (unfold M; assert (Q := Rabs_pos y); nra). set (q := sqrt M). assert (Q0 : 0 <= q) by apply sqrt_pos.
  assert (SQ : Rabs (s y) <= q). { apply Rsqr_incr_0; [|apply Rabs_pos|auto]. unfold Rsqr. rewrite <- Rabs_mult, Rabs_pos_eq by apply Rle_0_sqr. unfold q. rewrite sqrt_sqrt by auto. apply HS. }
  assert (Pz := Rabs_pos z). assert (Pz' := Rabs_pos z'). assert (Px := Rabs_pos x). assert (Ps := Rabs_pos (s y)).
  assert (MU : forall k z, Rabs (k*s y*z) <= Rabs k*(q*Rabs z)).
  { intros k t. rewrite !Rabs_mult, Rmult_assoc. apply Rmult_le_compat_l; [apply Rabs_pos|]. apply Rmult_le_compat_r; [apply Rabs_pos|auto]. }
  assert (T1 : Rabs (x + a y + b*s y*z + b'*s y*z') <= Rabs x + M + Rabs b*(q*Rabs z) + Rabs b'*(q*Rabs z')).
  { eapply Rle_trans; [apply Rabs_triang|]. apply Rplus_le_compat; [|apply MU]. eapply Rle_trans; [apply Rabs_triang|]. apply Rplus_le_compat; [|apply MU]. eapply Rle_trans; [apply Rabs_triang|]. apply Rplus_le_compat_l. apply HA. }
  assert (T2 : Rabs (c y + d*s y*z) <= M + Rabs d*(q*Rabs z)). { eapply Rle_trans; [apply Rabs_triang|]. apply Rplus_le_compat; [apply HC|apply MU]. }
  set (u := q*Rabs z) in *. set (u' := q*Rabs z') in *. assert (U : 0 <= u) by (unfold u; nra). assert (U' : 0 <= u') by (unfold u'; nra).
  replace (e*w*(Rabs x + M) + (e*w*q*Rabs z + e*w*q*Rabs z')) with (e*(w*(Rabs x + M) + w*u + w*u')) by (unfold u, u'; ring).
  apply Rmult_le_compat_l; auto. unfold w in *.
  assert (2*(Rabs x + M) <= w*(Rabs x + M)) by (apply Rmult_le_compat_r; unfold w; lra). unfold w in *.
  assert (0 <= Rabs b*u') by (apply Rmult_le_pos; auto). assert (0 <= Rabs b'*u) by (apply Rmult_le_pos; auto). assert (0 <= Rabs d*u') by (apply Rmult_le_pos; auto). lra.
Qed.
Lemma stpm_tame : tame2 (fun x y => stpm (x, y)).
Proof using TF CA CC CS AL BE HA HC HS.
  destruct stp_bound as (C & e & C0 & e0 & SB). split.
  - intros p0. change (joint (fun x y => stpm (x, y))) with (fun p : R*R => stpm (fst p, snd p)). apply (continuous_ext stpm); [intros [x y]; reflexivity|].
    set (M := al + be*(Rabs (snd p0) + 1)). assert (M0 : 0 <= M) by (unfold M; assert (Q := Rabs_pos (snd p0)); nra).
    set (K := C*exp (e*(Rabs (fst p0) + 1 + M))). assert (K0 : 0 <= K) by (unfold K; assert (X := exp_pos (e*(Rabs (fst p0) + 1 + M))); nra). set (f := e*sqrt M). assert (F0 : 0 <= f) by (unfold f; apply Rmult_le_pos; [auto|apply sqrt_pos]).
    assert (NEAR : locally p0 (fun p : R*R => forall z z', Rabs (stp p z z') <= K*exp (f*Rabs z)*exp (f*Rabs z'))).
    { assert (N1 : locally p0 (fun p : R*R => Rabs (fst p) <= Rabs (fst p0) + 1)).
      { apply (near_fst p0 (fun x => Rabs x <= Rabs (fst p0) + 1)). apply near_abs. }
      assert (N2 : locally p0 (fun p : R*R => Rabs (snd p) <= Rabs (snd p0) + 1)).
      { apply (near_snd p0 (fun x => Rabs x <= Rabs (snd p0) + 1)). apply near_abs. }
      generalize (filter_and _ _ N1 N2). apply filter_imp. intros p [P1 P2] z z'. eapply Rle_trans; [apply SB|]. cbv zeta. set (m := al + be*Rabs (snd p)). assert (MM : m <= M) by (unfold m, M; apply Rplus_le_compat_l, Rmult_le_compat_l; [exact BE|exact P2]).
      assert (SM : sqrt m <= sqrt M) by (apply sqrt_le_1_alt; auto). assert (SP := sqrt_pos m).
      assert (X1 : e*sqrt m <= f) by (unfold f; apply Rmult_le_compat_l; auto). assert (Pz := Rabs_pos z). assert (Pz' := Rabs_pos z').
      apply Rmult_le_compat; [|left; apply exp_pos| |apply exp_le, Rmult_le_compat_r; auto].
      - apply Rmult_le_pos; [apply Rmult_le_pos; [auto|left; apply exp_pos]|left; apply exp_pos].
      - apply Rmult_le_compat; [apply Rmult_le_pos; [auto|left; apply exp_pos]|left; apply exp_pos| |apply exp_le, Rmult_le_compat_r; auto].
        unfold K. apply Rmult_le_compat_l; auto. apply exp_le, Rmult_le_compat_l; auto. apply Rplus_le_compat; [exact P1|exact MM]. }
    unfold stpm, EN2. apply (EN_continuous (X := prod_UniformSpace R_UniformSpace R_UniformSpace) (fun p z => EN (stp p z)) p0 (2*K*exp (f*f/2)) f F0).
    + intro z. apply (EN_continuous (X := prod_UniformSpace (prod_UniformSpace R_UniformSpace R_UniformSpace) R_UniformSpace) (fun (q : R*R*R) z' => stp (fst q) (snd q) z') (p0, z) (K*exp (f*(Rabs z + 1))) f F0).
      * intro z'. apply stp_cont.
      * intros [p y] z'. cbn [fst snd]. apply (cont_second (stp p)). apply (stp_tame p).
      * assert (N1 : locally ((p0, z) : R*R*R) (fun q : R*R*R => forall z z', Rabs (stp (fst q) z z') <= K*exp (f*Rabs z)*exp (f*Rabs z'))) by (apply (near_fst (p0, z) (fun p => forall z z', Rabs (stp p z z') <= K*exp (f*Rabs z)*exp (f*Rabs z'))); exact NEAR).
        assert (N2 : locally ((p0, z) : R*R*R) (fun q : R*R*R => Rabs (snd q) <= Rabs z + 1)) by (apply (near_snd (p0, z) (fun x => Rabs x <= Rabs z + 1)); apply near_abs).
        generalize (filter_and _ _ N1 N2). apply filter_imp. intros q [Q1 Q2] z'. eapply Rle_trans; [apply Q1|]. apply Rmult_le_compat.
        -- apply Rmult_le_pos; [auto|left; apply exp_pos].
        -- left; apply exp_pos.
        -- apply Rmult_le_compat_l; auto. apply exp_le, Rmult_le_compat_l; auto.
        -- apply exp_abs_ch; auto.
    + intros p z. apply (tame2_outer (stp p) (stp_tame p)).
    + revert NEAR. apply filter_imp. intros p NB z. eapply Rle_trans; [apply (EN_bound (K*exp (f*Rabs z)) f)|].
      * apply Rmult_le_pos; [auto|left; apply exp_pos].
      * auto.
      * intro z'. apply cont_second. apply (stp_tame p).
      * intro z'. apply NB.
      * apply Rle_trans with (2*K*exp (f*f/2)*exp (f*Rabs z)); [right; ring|]. apply Rmult_le_compat_l; [|apply exp_abs_ch; auto]. apply Rmult_le_pos; [lra|left; apply exp_pos].
  - exists (4*C*exp (e*al + e*e*al)), (e + e*be + e*e*be). assert (X := exp_pos (e*al + e*e*al)). split; [nra|]. assert (EB : 0 <= e*be) by (apply Rmult_le_pos; auto). assert (EEB : 0 <= e*e*be) by (rewrite Rmult_assoc; apply Rmult_le_pos; auto). split; [lra|]. intros x y.
    specialize (SB (x, y)). cbn [fst snd] in SB. cbv zeta in SB. set (m := al + be*Rabs y) in *. assert (Py := Rabs_pos y). assert (Px := Rabs_pos x). assert (M0 : 0 <= m) by (unfold m; nra).
    set (f := e*sqrt m) in *. assert (F0 : 0 <= f) by (unfold f; apply Rmult_le_pos; [auto|apply sqrt_pos]). set (K := C*exp (e*(Rabs x + m))) in *. assert (K0 : 0 <= K) by (unfold K; assert (Z := exp_pos (e*(Rabs x + m))); nra).
    assert (FF : f*f = e*e*m) by (unfold f; replace (e*sqrt m*(e*sqrt m)) with (e*e*(sqrt m*sqrt m)) by ring; rewrite sqrt_sqrt; auto).
    unfold stpm, EN2. eapply Rle_trans; [apply (EN_bound (2*K*exp (f*f/2)) f)|].
    + apply Rmult_le_pos; [lra|left; apply exp_pos].
    + auto.
    + intro z. apply (tame2_outer (stp (x, y)) (stp_tame (x, y))).
    + intro z. eapply Rle_trans; [apply (EN_bound (K*exp (f*Rabs z)) f)|].
      * apply Rmult_le_pos; [auto|left; apply exp_pos].
      * auto.
      * intro z'. apply cont_second. apply (stp_tame (x, y)).
      * intro z'. apply SB.
      * right. ring.
    + replace (2*(2*K*exp (f*f/2))*exp (f*f/2)) with (4*K*exp (f*f)) by (replace (exp (f*f)) with (exp (f*f/2 + f*f/2)) by (f_equal; field); rewrite exp_plus; ring).
      unfold K. rewrite FF. replace (4*(C*exp (e*(Rabs x + m)))*exp (e*e*m)) with (4*C*(exp (e*(Rabs x + m))*exp (e*e*m))) by ring. rewrite (Rmult_assoc (4*C)). apply Rmult_le_compat_l; [lra|].
      rewrite <- !exp_plus. apply exp_le. unfold m. assert (0 <= e*Rabs y) by nra. assert (0 <= e*be*Rabs x) by (apply Rmult_le_pos; auto). assert (0 <= e*e*be*Rabs x) by (apply Rmult_le_pos; auto). lra.
Qed.
End Step.
