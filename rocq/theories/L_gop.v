(** Lemmas on means of functions of a normal variate, as operators on functions of a parameter. *)
From Coq Require Import Reals Lra Psatz Lia Classical.
From Coquelicot Require Import Coquelicot.
From Verif Require Import S_rv S_dist L_gauss L_gauss2 L_line.
Local Open Scope R_scope.

(** *** functions that grow as exponentials at most *)
Definition ch (c x : R) : R := exp (c*x) + exp (- (c*x)).
Lemma ch_pos c x : 0 < ch c x.
Proof. unfold ch. assert (A := exp_pos (c*x)). assert (B := exp_pos (- (c*x))). lra. Qed.
Lemma ch_cont c x : continuous (ch c) x.
Proof. apply (ex_derive_continuous (V := R_NormedModule)). unfold ch. auto_derive. auto. Qed.
Lemma exp_le a b : a <= b -> exp a <= exp b.
Proof. intros [H| ->]; [left; apply exp_increasing; auto|lra]. Qed.
Lemma ch_abs c x : 0 <= c -> exp (c * Rabs x) <= ch c x <= 2 * exp (c * Rabs x).
Proof.
  intro C. unfold ch. assert (A := exp_pos (c*x)). assert (B := exp_pos (- (c*x))). unfold Rabs. destruct (Rcase_abs x) as [N|P].
  - replace (c * - x) with (- (c*x)) by ring. assert (exp (c*x) <= exp (- (c*x))) by (apply exp_le; nra). lra.
  - assert (exp (- (c*x)) <= exp (c*x)) by (apply exp_le; nra). lra.
Qed.
Lemma ch_le c c' x : 0 <= c <= c' -> ch c x <= 2 * ch c' x.
Proof.
  intro H. destruct (ch_abs c x ltac:(lra)) as [_ A]. destruct (ch_abs c' x ltac:(lra)) as [B _].
  assert (exp (c * Rabs x) <= exp (c' * Rabs x)) by (apply exp_le; assert (Z := Rabs_pos x); nra). lra.
Qed.
Lemma ch_ge c x : 1 <= ch c x.
Proof. unfold ch. destruct (Rle_dec 0 (c*x)) as [H|H]; [assert (A := exp_ineq1_le (c*x)); assert (B := exp_pos (- (c*x)))|assert (A := exp_ineq1_le (- (c*x))); assert (B := exp_pos (c*x))]; lra. Qed.
Lemma ch_mult c c' x : 0 <= c -> 0 <= c' -> ch c x * ch c' x <= 4 * ch (c + c') x.
Proof.
  intros C C'. destruct (ch_abs c x C) as [_ A]. destruct (ch_abs c' x C') as [_ B]. destruct (ch_abs (c + c') x ltac:(lra)) as [D _].
  rewrite Rmult_plus_distr_r, exp_plus in D. assert (X := ch_pos c x). assert (Y := ch_pos c' x). nra.
Qed.
Lemma abs_le_ch x : Rabs x <= ch 1 x.
Proof. destruct (ch_abs 1 x ltac:(lra)) as [A _]. rewrite Rmult_1_l in A. assert (B := exp_ineq1_le (Rabs x)). lra. Qed.

Definition tame (f : R -> R) : Prop :=
  (forall x, continuous f x) /\ exists C c, 0 <= C /\ 0 <= c /\ forall x, Rabs (f x) <= C * ch c x.
Lemma tame_ext f g : (forall x, f x = g x) -> tame f -> tame g.
Proof.
  intros E (H & C & c & A & B & D). split.
  - intro x. apply (continuous_ext f g); auto.
  - exists C, c. repeat split; auto. intro x. rewrite <- E. apply D.
Qed.
Lemma tame_const a : tame (fun _ => a).
Proof.
  split; [intro; apply continuous_const|]. exists (Rabs a), 0. split; [apply Rabs_pos|]. split; [lra|]. intro x. assert (A := ch_ge 0 x). assert (B := Rabs_pos a). nra.
Qed.
Lemma tame_id : tame (fun x => x).
Proof. split; [intro; apply continuous_id|]. exists 1, 1. repeat split; try lra. intro x. rewrite Rmult_1_l. apply abs_le_ch. Qed.
Lemma tame_plus f g : tame f -> tame g -> tame (fun x => f x + g x).
Proof.
  intros (H & C & c & A & B & D) (H' & C' & c' & A' & B' & D'). split; [intro; apply (continuous_plus f g); auto|].
  exists (2*C + 2*C'), (c + c'). split; [lra|]. split; [lra|]. intro x. eapply Rle_trans; [apply Rabs_triang|].
  assert (X := ch_le c (c + c') x ltac:(lra)). assert (X' := ch_le c' (c + c') x ltac:(lra)). specialize (D x). specialize (D' x). nra.
Qed.
Lemma tame_mult f g : tame f -> tame g -> tame (fun x => f x * g x).
Proof.
  intros (H & C & c & A & B & D) (H' & C' & c' & A' & B' & D'). split; [intro; apply (continuous_mult (K := R_AbsRing) f g); auto|].
  exists (4*(C*C')), (c + c'). split; [nra|]. split; [lra|]. intro x. rewrite Rabs_mult.
  assert (X := ch_mult c c' x B B'). specialize (D x). specialize (D' x). assert (Y := Rabs_pos (f x)). assert (Y' := Rabs_pos (g x)).
  assert (Z := ch_pos c x). assert (Z' := ch_pos c' x).
  apply Rle_trans with ((C * ch c x) * (C' * ch c' x)); [apply Rmult_le_compat; auto|].
  replace (C * ch c x * (C' * ch c' x)) with ((C*C') * (ch c x * ch c' x)) by ring. replace (4*(C*C') * ch (c + c') x) with ((C*C') * (4 * ch (c + c') x)) by ring.
  apply Rmult_le_compat_l; [nra|auto].
Qed.
Lemma tame_scal a f : tame f -> tame (fun x => a * f x).
Proof. intro H. apply (tame_mult (fun _ => a) f); auto. apply tame_const. Qed.
Lemma tame_minus f g : tame f -> tame g -> tame (fun x => f x - g x).
Proof. intros H K. apply (tame_ext (fun x => f x + (-1) * g x)); [intro; ring|]. apply tame_plus; auto. apply tame_scal; auto. Qed.
Lemma tame_exp a b : tame (fun x => exp (a + b*x)).
Proof.
  split; [intro x; apply (ex_derive_continuous (V := R_NormedModule)); auto_derive; auto|].
  exists (exp a), (Rabs b). split; [left; apply exp_pos|]. split; [apply Rabs_pos|]. intro x. rewrite Rabs_pos_eq by (left; apply exp_pos). rewrite exp_plus.
  apply Rmult_le_compat_l; [left; apply exp_pos|]. destruct (ch_abs (Rabs b) x (Rabs_pos b)) as [A _]. eapply Rle_trans; [|exact A]. apply exp_le. rewrite <- Rabs_mult. apply Rle_abs.
Qed.
(** f of a tame argument, f having linear growth *)
Lemma tame_lip f : (forall x, continuous f x) -> (forall x, Rabs (f x) <= Rabs x) -> tame f.
Proof. intros H K. split; auto. exists 1, 1. repeat split; try lra. intro x. rewrite Rmult_1_l. eapply Rle_trans; [apply K|apply abs_le_ch]. Qed.
Lemma tame_max : tame (fun x => Rmax x 0).
Proof.
  apply tame_lip.
  - intro x. apply (continuous_ext (fun x => (x + Rabs x) * /2)).
    + intro y. unfold Rmax, Rabs. destruct (Rle_dec y 0), (Rcase_abs y); lra.
    + apply (continuous_mult (K := R_AbsRing) (fun x => x + Rabs x) (fun _ => /2)); [|apply continuous_const].
      apply (continuous_plus (fun x => x) Rabs); [apply continuous_id|apply continuous_Rabs].
  - intro x. unfold Rmax, Rabs. destruct (Rle_dec x 0), (Rcase_abs x); try lra; rewrite ?Rabs_R0; try (destruct (Rcase_abs 0); lra).
Qed.

(** *** means *)
Definition EN (f : R -> R) : R := RInt_gen (V := R_CompleteNormedModule) (fun z => f z * (exp (- (z*z/2))/sqrt (2*PI))) (Rbar_locally m_infty) (Rbar_locally p_infty).
Lemma EN_eq f v : mean_normal f v -> EN f = v.
Proof. intro H. apply is_RInt_gen_unique. exact H. Qed.
Lemma mean_ch c : mean_normal (ch c) (2 * exp (c*c/2)).
Proof.
  assert (A := mean_normal_exp 0 c). assert (B := mean_normal_exp 0 (- c)).
  assert (Q := line_plus _ _ _ _ A B). eapply line_eq; [eapply line_ext; [exact Q|]|].
  - intro x. cbv beta. unfold ch. rewrite !Rplus_0_l. replace (- c * x) with (- (c*x)) by ring. ring.
  - rewrite !Rplus_0_l. replace (- c * - c) with (c*c) by ring. ring.
Qed.
Lemma dens_pos z : 0 < exp (- (z*z/2))/sqrt (2*PI).
Proof. apply (phi_pos z). Qed.
Lemma mean_exists f C c : (forall x, continuous f x) -> (forall x, Rabs (f x) <= C * ch c x) -> mean_normal f (EN f).
Proof.
  intros H D. assert (M := line_scal _ _ C (mean_ch c)).
  destruct (line_exists (fun z => f z * (exp (- (z*z/2))/sqrt (2*PI))) (fun x => C * (ch c x * (exp (- (x*x/2))/sqrt (2*PI)))) _ M) as (v & V).
  - intro x. apply (continuous_mult (K := R_AbsRing) f phi); [apply H|apply phi_cont].
  - intro x. apply (continuous_mult (K := R_AbsRing) (fun _ => C) (fun x => ch c x * phi x)); [apply continuous_const|].
    apply (continuous_mult (K := R_AbsRing) (ch c) phi); [apply ch_cont|apply phi_cont].
  - intro x. rewrite Rabs_mult. assert (P := dens_pos x). rewrite (Rabs_pos_eq (_ / _)) by lra. rewrite <- Rmult_assoc. apply Rmult_le_compat_r; [lra|apply D].
  - rewrite (EN_eq f v V). exact V.
Qed.
Lemma EN_ok f : tame f -> mean_normal f (EN f).
Proof. intros (H & C & c & A & B & D). apply (mean_exists f C c); auto. Qed.
Lemma EN_ext f g : (forall x, f x = g x) -> EN f = EN g.
Proof. intro E. unfold EN. f_equal. apply FunctionalExtensionality.functional_extensionality. intro x. rewrite E. reflexivity. Qed.
Lemma EN_plus f g : tame f -> tame g -> EN (fun x => f x + g x) = EN f + EN g.
Proof.
  intros F G. apply EN_eq. eapply line_ext; [apply (line_plus _ _ _ _ (EN_ok f F) (EN_ok g G))|]. intro x. cbv beta. ring.
Qed.
Lemma EN_scal a f : tame f -> EN (fun x => a * f x) = a * EN f.
Proof. intro F. apply EN_eq. eapply line_ext; [apply (line_scal _ _ a (EN_ok f F))|]. intro x. cbv beta. ring. Qed.
Lemma EN_const a : EN (fun _ => a) = a.
Proof. apply EN_eq. assert (H := mean_normal_poly a 0 0). replace (a + 0) with a in H by ring. eapply line_ext; [exact H|]. intro x. cbv beta. ring. Qed.
Lemma EN_ge0 f : tame f -> (forall x, 0 <= f x) -> 0 <= EN f.
Proof.
  intros F P. apply (line_ge0 _ _ (EN_ok f F)).
  - intro x. apply (continuous_mult (K := R_AbsRing) f phi); [apply F|apply phi_cont].
  - intro x. assert (Q := dens_pos x). specialize (P x). nra.
Qed.
Lemma EN_le f g : tame f -> tame g -> (forall x, f x <= g x) -> EN f <= EN g.
Proof.
  intros F G H. assert (Q := EN_ge0 (fun x => g x + (-1) * f x) ltac:(apply tame_plus; [|apply tame_scal]; auto) ltac:(intro x; specialize (H x); lra)).
  rewrite EN_plus, EN_scal in Q by (auto; apply tame_scal; auto). lra.
Qed.
Lemma EN_abs f g : tame f -> tame g -> (forall x, Rabs (f x) <= g x) -> Rabs (EN f) <= EN g.
Proof.
  intros F G H. apply Rabs_le. split.
  - assert (Q := EN_le (fun x => (-1) * g x) f ltac:(apply tame_scal; auto) F ltac:(intro x; specialize (H x); apply Rabs_le_between in H; lra)). rewrite EN_scal in Q by auto. lra.
  - apply EN_le; auto. intro x. eapply Rle_trans; [apply Rle_abs|auto].
Qed.
Lemma EN_exp a b : EN (fun z => exp (a + b*z)) = exp (a + b*b/2).
Proof. apply EN_eq, mean_normal_exp. Qed.
Lemma EN_poly a b c : EN (fun z => a + b*z + c*(z*z)) = a + c.
Proof. apply EN_eq, mean_normal_poly. Qed.
Lemma tame_aff f a b : tame f -> tame (fun z => f (a + b*z)).
Proof.
  intros (H & C & c & A & B & D). split.
  - intro z. apply (continuous_comp (fun z => a + b*z) f); [|apply H]. apply (ex_derive_continuous (V := R_NormedModule)). auto_derive. auto.
  - exists (2*C * exp (c * Rabs a)), (c * Rabs b). split; [assert (X := exp_pos (c * Rabs a)); nra|]. split; [apply Rmult_le_pos; [auto|apply Rabs_pos]|].
    intro z. eapply Rle_trans; [apply D|]. destruct (ch_abs c (a + b*z) B) as [_ E]. destruct (ch_abs (c * Rabs b) z) as [F _]; [apply Rmult_le_pos; [auto|apply Rabs_pos]|].
    replace (2*C*exp (c*Rabs a) * ch (c*Rabs b) z) with (C * (2 * (exp (c*Rabs a) * ch (c*Rabs b) z))) by ring. apply Rmult_le_compat_l; auto. eapply Rle_trans; [exact E|].
    apply Rmult_le_compat_l; [lra|]. apply Rle_trans with (exp (c*Rabs a) * exp (c * Rabs b * Rabs z)); [|apply Rmult_le_compat_l; [left; apply exp_pos|auto]].
    rewrite <- exp_plus. apply exp_le. assert (X := Rabs_triang a (b*z)). rewrite Rabs_mult in X. nra.
Qed.
Lemma EN_ch c a b : EN (fun z => ch c (a + b*z)) = ch c a * exp (c*c*(b*b)/2).
Proof.
  rewrite (EN_ext _ (fun z => exp (c*a + (c*b)*z) + exp (- (c*a) + (- (c*b))*z))) by (intro z; unfold ch; f_equal; f_equal; ring).
  rewrite EN_plus by apply tame_exp. rewrite !EN_exp. unfold ch. rewrite Rmult_plus_distr_r, <- !exp_plus. f_equal; f_equal; field.
Qed.

(** *** continuity in a parameter *)
(** a choice of radii, for a property that holds of smaller radii as well *)
Lemma radius (P : R -> R -> Prop) : (forall z d d', d' <= d -> P z d -> P z d') -> (forall z, exists d, 0 < d /\ P z d) ->
  exists del : R -> posreal, forall z, P z (del z).
Proof.
  intros M Q. set (E := fun z d => 0 < d <= 1 /\ P z d).
  assert (L : forall z, {m : R | is_lub (E z) m}).
  { intro z. apply completeness.
    - exists 1. intros d [H _]. lra.
    - destruct (Q z) as (d & D & H). exists (Rmin d 1). split; [split; [apply Rmin_case; lra|apply Rmin_r]|]. apply (M z d); auto. apply Rmin_l. }
  assert (PO : forall z, 0 < proj1_sig (L z) / 2).
  { intro z. destruct (L z) as (m & U & W). cbn. destruct (Q z) as (d & D & H). assert (T : E z (Rmin d 1)).
    { split; [split; [apply Rmin_case; lra|apply Rmin_r]|]. apply (M z d); auto. apply Rmin_l. }
    assert (V := U _ T). destruct T as [T _]. lra. }
  exists (fun z => mkposreal _ (PO z)). intro z. cbn. assert (PZ := PO z). destruct (L z) as (m & U & W). cbn in *. apply NNPP. intro N.
  assert (m <= m/2); [|lra]. apply W. intros d [D H]. apply Rnot_lt_le. intro LT. apply N. apply (M z d); auto. lra.
Qed.
Lemma tube {X : UniformSpace} (F : X -> R -> R) (x0 : X) (r : R) : 0 <= r -> (forall z, continuous (fun p : X * R => F (fst p) (snd p)) (x0, z)) ->
  forall eps, 0 < eps -> locally x0 (fun x => forall z, Rabs z <= r -> Rabs (F x z - F x0 z) <= eps).
Proof.
  intros R0 H eps EP. assert (E2 : 0 < eps/2) by lra.
  assert (Q : forall z : R, exists d : posreal, forall (x : X) (y : R), ball x0 d x -> Rabs (y - z) < d -> Rabs (F x y - F x0 z) < eps/2).
  { intro z. specialize (H z). apply filterlim_locally with (eps := mkposreal _ E2) in H. destruct H as (d & Hd). exists d. intros x y Bx By.
    apply (Hd (x, y)). split; auto. }
  apply NNPP. intro N.
  destruct (radius (fun z d => forall (x : X) (y : R), ball x0 d x -> Rabs (y - z) < d -> Rabs (F x y - F x0 z) < eps/2)) as (del & Hdel).
  { intros z d d' LE P x y Bx By. apply P; [apply (ball_le x0 d' d LE x Bx)|lra]. }
  { intro z. destruct (Q z) as (d & Hd). exists d. split; [apply cond_pos|exact Hd]. }
  destruct (compactness_value_1d (- r) r del) as (d & Hd). apply N. exists d. intros x Bx z Hz. apply Rnot_lt_le. intro LT.
  apply (Hd z ltac:(apply Rabs_le_between; auto)). intros (t & _ & Ht & Dt).
  assert (A := Hdel t x z (ball_le x0 d (del t) Dt x Bx) Ht). assert (B := Hdel t x0 z (ball_center x0 (del t)) Ht).
  replace (F x z - F x0 z) with ((F x z - F x0 t) - (F x0 z - F x0 t)) in LT by ring. assert (T := Rabs_triang (F x z - F x0 t) (- (F x0 z - F x0 t))). rewrite Rabs_Ropp in T. unfold Rminus at 1 in LT. lra.
Qed.
Lemma EN_continuous {X : UniformSpace} (F : X -> R -> R) (x0 : X) C c : 0 <= c -> 
  (forall z, continuous (fun p : X * R => F (fst p) (snd p)) (x0, z)) -> (forall x z, continuous (F x) z) ->
  locally x0 (fun x => forall z, Rabs (F x z) <= C * ch c z) -> continuous (fun x => EN (F x)) x0.
Proof.
  intros C0 J K LB. apply filterlim_locally. intros [eps EP].
  assert (B0 : forall z, Rabs (F x0 z) <= C * ch c z) by (apply locally_singleton in LB; auto).
  assert (CP : 0 <= C). { assert (A := B0 0). assert (B := ch_pos c 0). assert (D := Rabs_pos (F x0 0)). apply Rnot_lt_le. intro. nra. }
  set (K0 := 8 * C * (2 * exp ((c + 1)*(c + 1)/2))). assert (KP : 0 <= K0) by (unfold K0; assert (X1 := exp_pos ((c + 1)*(c + 1)/2)); nra).
  set (r := 2 * K0 / eps). assert (RP : 0 <= r) by (unfold r, Rdiv; apply Rmult_le_pos; [lra|left; apply Rinv_0_lt_compat; auto]).
  assert (TB := tube F x0 r RP J (eps/4) ltac:(lra)). generalize (filter_and _ _ LB TB). apply filter_imp. intros x [HB HT].
  change (Rabs (EN (F x) - EN (F x0)) < eps).
  assert (Tx : tame (F x)) by (split; [apply K|]; exists C, c; auto). assert (T0 : tame (F x0)) by (split; [apply K|]; exists C, c; auto).
  replace (EN (F x) - EN (F x0)) with (EN (fun z => F x z + (-1) * F x0 z)) by (rewrite EN_plus, EN_scal by (auto; apply tame_scal; auto); ring).
  assert (TC : tame (ch (c + 1))). { split; [apply ch_cont|]. exists 1, (c + 1). repeat split; try lra. intro z. rewrite Rabs_pos_eq by (left; apply ch_pos). lra. }
  eapply Rle_lt_trans; [apply (EN_abs _ (fun z => eps/4 + (8*C * exp (- r)) * ch (c + 1) z))|].
  - apply tame_plus; [auto|apply tame_scal; auto].
  - apply tame_plus; [apply tame_const|apply tame_scal; auto].
  - intro z. assert (ER := exp_pos (- r)). assert (CZ := ch_pos (c + 1) z). replace (F x z + -1 * F x0 z) with (F x z - F x0 z) by ring. destruct (Rle_dec (Rabs z) r) as [H|H].
    + specialize (HT z H). assert (0 <= 8*C*exp (- r)) by nra. nra.
    + assert (H2 : Rabs (F x z - F x0 z) <= 2 * C * ch c z).
      { eapply Rle_trans; [apply Rabs_triang|]. rewrite Rabs_Ropp. specialize (HB z). specialize (B0 z). lra. }
      eapply Rle_trans; [exact H2|]. apply Rle_trans with (8*C*exp (- r) * ch (c + 1) z); [|lra].
      destruct (ch_abs c z C0) as [_ A]. destruct (ch_abs (c + 1) z ltac:(lra)) as [B _]. rewrite Rmult_plus_distr_r, exp_plus, Rmult_1_l in B.
      assert (D : exp r <= exp (Rabs z)) by (apply exp_le; lra). assert (E1 : exp (- r) * exp r = 1) by (rewrite <- exp_plus, Rplus_opp_l; apply exp_0).
      assert (EC := exp_pos (c * Rabs z)). assert (W : exp (c * Rabs z) <= exp (- r) * ch (c + 1) z).
      { apply Rle_trans with (exp (- r) * (exp (c*Rabs z) * exp (Rabs z))); [|apply Rmult_le_compat_l; lra]. assert (exp (-r) * exp r * exp (c * Rabs z) <= exp (-r) * exp (Rabs z) * exp (c*Rabs z)) by (apply Rmult_le_compat_r; [lra|apply Rmult_le_compat_l; lra]). nra. }
      replace (8*C*exp (- r) * ch (c + 1) z) with (8*C*(exp (- r) * ch (c + 1) z)) by ring. nra.
  - rewrite EN_plus, EN_const, EN_scal by (auto; try apply tame_const; apply tame_scal; auto).
    rewrite (EN_eq _ _ (mean_ch (c + 1))). replace (8*C*exp (- r) * (2*exp ((c + 1)*(c + 1)/2))) with (K0 * exp (- r)) by (unfold K0; ring).
    assert (ER : exp (- r) * (1 + r) <= 1).
    { assert (A := exp_ineq1_le r). assert (E1 : exp (- r) * exp r = 1) by (rewrite <- exp_plus, Rplus_opp_l; apply exp_0). assert (B := exp_pos (- r)). nra. }
    assert (B := exp_pos (- r)). assert (M : r * eps = 2*K0) by (unfold r; field; lra).
    assert (exp (- r) * r <= 1) by nra. assert (K0 * exp (- r) <= eps/2) by nra. lra.
Qed.
