(** Densities of sums with exponential variates. *)
From Coq Require Import Reals Lra Psatz Lia.
From Coquelicot Require Import Coquelicot.
From Verif Require Import S_dist M_analytical S_analytical S_rv L_complex L_rv L_gauss L_gauss2 L_dist L_gamma L_cir L_line L_fourier L_mix.
Local Open Scope R_scope.

Lemma exp_neg_lim1 : is_lim (fun e => exp (- e)) p_infty 0.
Proof. apply is_lim_ext with (fun e => exp (- (1*e))); [intro; f_equal; ring|]. apply exp_neg_lim. lra. Qed.
Section Exp.
Variables (f : R -> R) (B a : R).
Hypotheses (A0 : 0 < a) (Cf : cont_line f) (Pf : forall x, 0 <= f x) (Bf : forall x, f x <= B) (Lf : line f 1).
Let k w := f w * (exp (w/a)/a).
Lemma k_cont : cont_line k.
Proof. apply cont_mult; auto. intro x. apply (ex_derive_continuous (V := R_NormedModule)). auto_derive. lra. Qed.
Lemma k_pos w : 0 <= k w.
Proof. unfold k. apply Rmult_le_pos; auto. left. apply Rdiv_lt_0_compat; auto. apply exp_pos. Qed.
Lemma k_bound x y : x <= y -> RInt k x y <= B*exp (y/a).
Proof.
  intro L. assert (B0 : 0 <= B) by (eapply Rle_trans; [apply (Pf 0)|apply Bf]).
  apply Rle_trans with (RInt (fun w => B*(exp (w/a)/a)) x y).
  - apply RInt_le; auto; [apply cint, k_cont|apply cint; apply cont_mult; [apply cont_const|]; intro z; apply (ex_derive_continuous (V := R_NormedModule)); auto_derive; lra|].
    intros w _. unfold k. apply Rmult_le_compat_r; auto. left. apply Rdiv_lt_0_compat; auto. apply exp_pos.
  - assert (I : is_RInt (fun w => B*(exp (w/a)/a)) x y (minus (B*exp (y/a)) (B*exp (x/a)))).
    { apply (is_RInt_derive (V := R_CompleteNormedModule) (fun w => B*exp (w/a))).
      - intros w _. auto_derive; [lra|]. unfold Rdiv. ring.
      - intros w _. apply (ex_derive_continuous (V := R_NormedModule)). auto_derive. lra. }
    rewrite (is_RInt_unique (V := R_CompleteNormedModule) _ _ _ _ I). unfold minus, plus, opp. simpl. pose proof (exp_pos (x/a)). nra.
Qed.
Let H (x : R) : R := RInt k 0 x.
Lemma H_der x : is_derive H x (k x).
Proof.
  apply (is_derive_RInt (V := R_NormedModule) k H 0 x); [|apply k_cont].
  apply filter_forall. intro y. apply (RInt_correct (V := R_CompleteNormedModule)). apply cint, k_cont.
Qed.
Lemma H_diff x y : H y - H x = RInt k x y.
Proof. unfold H. pose proof (RInt_Chasles k 0 x y ltac:(apply cint, k_cont) ltac:(apply cint, k_cont)) as E. unfold plus in E. simpl in E. lra. Qed.
Lemma L_exists : exists L : R, is_lim_seq (fun n => - H (- INR n)) L.
Proof.
  destruct (ex_finite_lim_seq_incr (fun n => - H (- INR n)) B) as [L HL].
  - intro n. pose proof (H_diff (- INR (S n)) (- INR n)) as E. assert (0 <= RInt k (- INR (S n)) (- INR n)). { apply RInt_ge_0; [rewrite S_INR; lra|apply cint, k_cont|intros; apply k_pos]. } lra.
  - intro n. pose proof (H_diff (- INR n) 0) as E. assert (E0 : H 0 = 0) by (unfold H; rewrite RInt_point; reflexivity). pose proof (pos_INR n). pose proof (k_bound (- INR n) 0 ltac:(lra)) as K. unfold Rdiv in K. rewrite Rmult_0_l, exp_0 in K. lra.
  - exists L. exact HL.
Qed.
Variable L : R.
Hypothesis HL : is_lim_seq (fun n => - H (- INR n)) L.
Lemma HL_bound x : 0 <= H x + L <= B*exp (x/a).
Proof.
  assert (S : is_lim_seq (fun n => H x + - H (- INR n)) (H x + L)) by (apply is_lim_seq_plus'; [apply is_lim_seq_const|exact HL]).
  destruct (nfloor_ex (Rabs x) (Rabs_pos x)) as [N [_ HN]].
  assert (EV : forall n, (N + 1 <= n)%nat -> 0 <= H x + - H (- INR n) <= B*exp (x/a)).
  { intros n Ln. apply le_INR in Ln. rewrite plus_INR in Ln. simpl in Ln. pose proof (Rle_abs (- x)). rewrite Rabs_Ropp in *.
    pose proof (H_diff (- INR n) x) as HD. pose proof (k_bound (- INR n) x ltac:(lra)). assert (0 <= RInt k (- INR n) x) by (apply RInt_ge_0; [lra|apply cint, k_cont|intros; apply k_pos]). lra. }
  split.
  - apply (is_lim_seq_le_loc (fun _ => 0) (fun n => H x + - H (- INR n)) 0 (H x + L)); [|apply is_lim_seq_const|exact S]. exists (N + 1)%nat. intros n Ln. apply EV; auto.
  - apply (is_lim_seq_le_loc (fun n => H x + - H (- INR n)) (fun _ => B*exp (x/a)) (H x + L) (B*exp (x/a))); [|exact S|apply is_lim_seq_const]. exists (N + 1)%nat. intros n Ln. apply EV; auto.
Qed.
Definition econv (x : R) : R := exp (- (x/a))*(H x + L).
Lemma econv_der x : is_derive econv x ((f x - econv x)/a).
Proof.
  unfold econv. pose proof (H_der x) as D. auto_derive.
  - eexists. exact D.
  - change (Derive (fun x => H x) x) with (Derive H x). rewrite (is_derive_unique _ _ _ D). unfold k. replace (exp (x/a)) with (/exp (- (x/a))) by (rewrite exp_Ropp; apply Rinv_inv).
    unfold Rdiv. set (e := exp (- (x*/a))). assert (0 < e) by apply exp_pos. match goal with |- ?a = ?b => change (@eq R a b) end. field. split; lra.
Qed.
Lemma econv_bound x : 0 <= econv x <= B.
Proof.
  destruct (HL_bound x) as [L0 L1]. unfold econv. rewrite exp_Ropp. pose proof (exp_pos (x/a)). split.
  - apply Rmult_le_pos; auto. left. apply Rinv_0_lt_compat. auto.
  - apply Rmult_le_reg_l with (exp (x/a)); auto. rewrite <- Rmult_assoc, Rinv_r, Rmult_1_l by lra. lra.
Qed.
Lemma econv_cont : cont_line econv.
Proof. intro x. apply (ex_derive_continuous (V := R_NormedModule)). eexists. apply econv_der. Qed.
(** the mean of f(x - a e) *)
Lemma econv_mean x : mean_exp (fun e => f (x - a*e)) (econv x).
Proof.
  set (F := fun e => - (exp (- e)*econv (x - a*e))).
  replace (econv x) with (0 - F 0). 2: { unfold F. rewrite Ropp_0, exp_0, Rmult_0_r, Rminus_0_r. ring. }
  apply integral_to_infinity.
  - intro e. unfold F. pose proof (econv_der (x - a*e)) as D. auto_derive; [eexists; exact D|].
    change (Derive (fun x => econv x) (x + - (a*e))) with (Derive econv (x - a*e)). rewrite (is_derive_unique _ _ _ D). change (x + - (a*e)) with (x - a*e). match goal with |- ?a = ?b => change (@eq R a b) end. field. lra.
  - intro e. apply (continuous_mult (K := R_AbsRing) (fun e => f (x - a*e)) (fun e => exp (- e))).
    + apply (continuous_comp (fun e => x - a*e) f); [|apply Cf]. apply (ex_derive_continuous (V := R_NormedModule)). auto_derive; auto.
    + apply (ex_derive_continuous (V := R_NormedModule)). auto_derive; auto.
  - assert (B0 : 0 <= B) by (eapply Rle_trans; [apply (Pf 0)|apply Bf]).
    apply (is_lim_le_le_loc (fun e => - (B*exp (- e))) (fun e => B*exp (- e)) F p_infty 0).
    + exists 0. intros e _. unfold F. pose proof (exp_pos (- e)). destruct (econv_bound (x - a*e)). nra.
    + replace (Finite 0) with (Rbar_opp (Rbar_mult B 0)) by (simpl; f_equal; ring). apply is_lim_opp. apply is_lim_scal_l. apply exp_neg_lim1.
    + replace (Finite 0) with (Rbar_mult B 0) by (simpl; f_equal; ring). apply is_lim_scal_l. apply exp_neg_lim1.
Qed.
(** it vanishes at infinity *)
Lemma econv_le x y : 0 <= y -> econv x <= exp (- y)*B + RInt f (x - a*y) x/a.
Proof.
  intro Y. set (x0 := x - a*y). assert (X0 : x0 <= x) by (unfold x0; nra).
  assert (E : H x + L = (H x0 + L) + RInt k x0 x) by (rewrite <- (H_diff x0 x); ring).
  assert (K : RInt k x0 x <= exp (x/a)/a*RInt f x0 x).
  { rewrite <- RInt_mult_const by auto. apply RInt_le; auto; [apply cint, k_cont|apply cint; apply cont_mult; auto; apply cont_const|].
    intros w W. unfold k. rewrite Rmult_comm. apply Rmult_le_compat_r; auto. unfold Rdiv. apply Rmult_le_compat_r; [left; apply Rinv_0_lt_compat; auto|].
    destruct (Rle_lt_or_eq_dec (w*/a) (x*/a)) as [Q|Q]; [apply Rmult_le_compat_r; [left; apply Rinv_0_lt_compat; auto|lra]|left; apply exp_increasing; auto|rewrite Q; lra]. }
  destruct (HL_bound x0) as [_ L1].
  assert (EX : exp (x0/a) = exp (x/a)*exp (- y)). { rewrite <- exp_plus. f_equal. unfold x0. field. lra. }
  unfold econv. rewrite exp_Ropp. pose proof (exp_pos (x/a)). apply Rmult_le_reg_l with (exp (x/a)); auto. rewrite <- Rmult_assoc, Rinv_r, Rmult_1_l by lra.
  replace (exp (x/a)*(exp (- y)*B + RInt f x0 x/a)) with (B*(exp (x/a)*exp (- y)) + exp (x/a)/a*RInt f x0 x) by (field; lra). rewrite <- EX. lra.
Qed.
Lemma econv_small eps : 0 < eps -> exists M, 0 < M /\ forall x, M < Rabs x -> Rabs (econv x - 0) < eps.
Proof.
  intro EP. assert (B0 : 0 <= B) by (eapply Rle_trans; [apply (Pf 0)|apply Bf]).
  destruct (tail f 1 Lf Cf Pf (a*(eps/2)) ltac:(nra)) as (M & MP & K).
  set (y := 2*B/eps + 1). assert (Y0 : 0 < y). { unfold y. assert (0 <= 2*B/eps) by (apply Rmult_le_pos; [lra|left; apply Rinv_0_lt_compat; auto]). lra. }
  assert (EY : exp (- y)*B < eps/2).
  { rewrite exp_Ropp. pose proof (exp_ineq1_le y). apply Rle_lt_trans with (/(1 + y)*B); [apply Rmult_le_compat_r; auto; apply Rinv_le_contravar; lra|].
    apply Rmult_lt_reg_l with (1 + y); [lra|]. rewrite <- Rmult_assoc, Rinv_r, Rmult_1_l by lra. unfold y. replace ((1 + (2*B/eps + 1))*(eps/2)) with (B + eps) by (field; lra). lra. }
  exists (M + 1 + a*y). assert (0 < a*y) by nra. split; [lra|]. intros x X. destruct (econv_bound x) as [E0 _]. rewrite Rminus_0_r, Rabs_pos_eq by auto.
  eapply Rle_lt_trans; [apply (econv_le x y); lra|].
  assert (Q : RInt f (x - a*y) x < a*(eps/2)).
  { set (c := Rmin (- (M + 1)) (x - a*y)). set (d := Rmax (M + 1) x).
    assert (C1 : c <= - (M + 1)) by apply Rmin_l. assert (C2 : c <= x - a*y) by apply Rmin_r. assert (D1 : M + 1 <= d) by apply Rmax_l. assert (D2 : x <= d) by apply Rmax_r.
    pose proof (K c d ltac:(lra) ltac:(lra)) as [_ K1]. pose proof (K (- (M + 1)) (M + 1) ltac:(lra) ltac:(lra)) as [K2 _].
    revert X. unfold Rabs. destruct (Rcase_abs x) as [N|N]; intro X.
    - (* left *) pose proof (RInt_Chasles f c (- (M + 1)) d ltac:(apply cint; auto) ltac:(apply cint; auto)) as Ch. unfold plus in Ch. simpl in Ch.
      pose proof (line_pos f (- (M + 1)) d (- (M + 1)) (M + 1) Cf Pf ltac:(lra) ltac:(lra) ltac:(lra)).
      pose proof (line_pos f c (- (M + 1)) (x - a*y) x Cf Pf ltac:(lra) ltac:(lra) ltac:(lra)). lra.
    - pose proof (RInt_Chasles f c (M + 1) d ltac:(apply cint; auto) ltac:(apply cint; auto)) as Ch. unfold plus in Ch. simpl in Ch.
      pose proof (line_pos f c (M + 1) (- (M + 1)) (M + 1) Cf Pf ltac:(lra) ltac:(lra) ltac:(lra)).
      pose proof (line_pos f (M + 1) d (x - a*y) x Cf Pf ltac:(lra) ltac:(lra) ltac:(lra)). lra. }
  assert (RInt f (x - a*y) x/a < eps/2). { apply Rmult_lt_reg_r with a; auto. unfold Rdiv. rewrite Rmult_assoc, Rinv_l, Rmult_1_r by lra. lra. }
  lra.
Qed.
(** integrals of derivatives of functions that vanish at infinity *)
Lemma line_zero (F F' : R -> R) (h : R -> R) : (forall x, is_derive F x (F' x)) -> cont_line F' -> (forall x, Rabs (h x) <= 1) -> (forall x, F x = h x*econv x) -> line F' 0.
Proof.
  intros D C Bh E. apply line_intro; auto. intros eps EP. destruct (econv_small (eps/2) ltac:(lra)) as (M & MP & K). exists M. split; auto. intros x y X Y.
  assert (I : is_RInt F' x y (minus (F y) (F x))) by (apply (is_RInt_derive (V := R_CompleteNormedModule) F F'); intros; auto).
  rewrite (is_RInt_unique (V := R_CompleteNormedModule) _ _ _ _ I). unfold minus, plus, opp. simpl. rewrite Rminus_0_r.
  assert (S : forall z, M < Rabs z -> Rabs (F z) < eps/2).
  { intros z Z. specialize (K z Z). rewrite Rminus_0_r in K. rewrite E, Rabs_mult. pose proof (Rabs_pos (econv z)). specialize (Bh z). nra. }
  eapply Rle_lt_trans; [apply Rabs_triang|]. rewrite Rabs_Ropp. pose proof (S x ltac:(rewrite Rabs_left; lra)). pose proof (S y ltac:(rewrite Rabs_right; lra)). lra.
Qed.
Lemma econv_line : line econv 1.
Proof.
  assert (Z : line (fun x => (f x - econv x)/a) 0).
  { apply (line_zero econv _ (fun _ => 1)); [apply econv_der| |intro; rewrite Rabs_R1; lra|intro; ring].
    apply (cont_mult (fun x => f x - econv x) (fun _ => /a)); [|apply cont_const]. intro x. apply (continuous_minus (V := R_NormedModule) f econv); [apply Cf|apply econv_cont]. }
  eapply line_eq; [eapply line_ext; [apply line_minus; [exact Lf|apply (line_scal _ _ a Z)]|]|ring]. intro x. cbv beta. field. lra.
Qed.
Lemma econv_fourier (c : R -> C) : fourier line (fun x => x) f c -> fourier line (fun x => x) econv (fun u => Cmult (c u) (exp_chf a u)).
Proof.
  intros Fc u. destruct (Fc u) as [FC FS]. set (cu := fst (c u)) in *. set (su := snd (c u)) in *.
  assert (CC : cont_line (fun x => cos (u*x) * econv x)) by (apply cont_cos, econv_cont).
  assert (CSn : cont_line (fun x => sin (u*x))) by (intro x; apply (ex_derive_continuous (V := R_NormedModule)); auto_derive; auto).
  assert (CS : cont_line (fun x => sin (u*x) * econv x)) by (apply cont_mult; [auto|apply econv_cont]).
  assert (dom : forall h, (forall x, Rabs (h x) <= 1) -> forall x, Rabs (h x * econv x) <= econv x).
  { intros h Bh x. destruct (econv_bound x) as [E0 _]. rewrite Rabs_mult, (Rabs_pos_eq (econv x)) by auto. specialize (Bh x). nra. }
  destruct (line_exists _ econv 1 econv_line CC econv_cont (dom (fun x => cos (u*x)) (fun x => cos_le1 (u*x)))) as [p LP].
  destruct (line_exists _ econv 1 econv_line CS econv_cont (dom (fun x => sin (u*x)) (fun x => sin_le1 (u*x)))) as [q LQ].
  assert (E1 : p + a*u*q = cu).
  { apply (line_unique (fun x => cos (u*x) * f x)); auto.
    assert (Z : line (fun x => - u*sin (u*x)*econv x + cos (u*x)*((f x - econv x)/a)) 0).
    { apply (line_zero (fun x => cos (u*x)*econv x) _ (fun x => cos (u*x))); [| |intro; apply cos_le1|reflexivity].
      - intro x. pose proof (econv_der x) as D. auto_derive; [eexists; exact D|]. change (Derive (fun x => econv x) x) with (Derive econv x). rewrite (is_derive_unique _ _ _ D). ring.
      - intro x. apply (continuous_plus (V := R_NormedModule) (fun x => - u*sin (u*x)*econv x) (fun x => cos (u*x)*((f x - econv x)/a))).
        + apply cont_mult; [|apply econv_cont]. apply cont_mult; [apply cont_const|auto].
        + apply cont_cos. apply (cont_mult (fun x => f x - econv x) (fun _ => /a)); [|apply cont_const]. intro z. apply (continuous_minus (V := R_NormedModule) f econv); [apply Cf|apply econv_cont]. }
    eapply line_eq; [eapply line_ext; [apply line_plus; [apply line_plus; [exact LP|apply (line_scal _ _ (a*u) LQ)]|apply (line_scal _ _ a Z)]|]|ring].
    intro x. cbv beta. field. lra. }
  assert (E2 : q - a*u*p = su).
  { apply (line_unique (fun x => sin (u*x) * f x)); auto.
    assert (Z : line (fun x => u*cos (u*x)*econv x + sin (u*x)*((f x - econv x)/a)) 0).
    { apply (line_zero (fun x => sin (u*x)*econv x) _ (fun x => sin (u*x))); [| |intro; apply sin_le1|reflexivity].
      - intro x. pose proof (econv_der x) as D. auto_derive; [eexists; exact D|]. change (Derive (fun x => econv x) x) with (Derive econv x). rewrite (is_derive_unique _ _ _ D). ring.
      - intro x. apply (continuous_plus (V := R_NormedModule) (fun x => u*cos (u*x)*econv x) (fun x => sin (u*x)*((f x - econv x)/a))).
        + apply cont_mult; [|apply econv_cont]. apply cont_mult; [apply cont_const|]. intro z. apply (ex_derive_continuous (V := R_NormedModule)). auto_derive; auto.
        + apply cont_mult; [auto|]. apply (cont_mult (fun x => f x - econv x) (fun _ => /a)); [|apply cont_const]. intro z. apply (continuous_minus (V := R_NormedModule) f econv); [apply Cf|apply econv_cont]. }
    eapply line_eq; [eapply line_ext; [apply line_plus; [apply line_minus; [exact LQ|apply (line_scal _ _ (a*u) LP)]|apply (line_scal _ _ a Z)]|]|ring].
    intro x. cbv beta. field. lra. }
  assert (E : Cmult (c u) (exp_chf a u) = (p, q)).
  { assert (N : Cminus (RtoC 1) (Cmult (Cmult Ci a) u) <> RtoC 0) by (intro Z; apply (f_equal fst) in Z; simpl in Z; lra).
    assert (M : c u = Cmult (p, q) (Cminus (RtoC 1) (Cmult (Cmult Ci a) u))).
    { rewrite (surjective_pairing (c u)). fold cu su. rewrite <- E1, <- E2. apply injective_projections; simpl; ring. }
    rewrite M. unfold exp_chf. set (z := Cminus (RtoC 1) (Cmult (Cmult Ci a) u)) in *. rewrite <- Cmult_assoc, Cinv_r by auto. apply Cmult_1_r. }
  rewrite E. split; [exact LP|exact LQ].
Qed.
End Exp.

Definition exp_next (a : R) (f : R -> R) : R -> R := econv f a (real (Lim_seq (fun n => - RInt (fun w => f w * (exp (w/a)/a)) 0 (- INR n)))).
Definition step_ok (f : R -> R) (B : R) (E : (R -> R) -> R -> Prop) (J : R -> C) (g : R -> R) : Prop :=
  cont_line g /\ (forall x, 0 <= g x <= B) /\ line g 1 /\ (forall x, E (fun j => f (x - j)) (g x)) /\
    (forall c, fourier line (fun x => x) f c -> fourier line (fun x => x) g (fun u => Cmult (c u) (J u))).
Lemma exp_step (f : R -> R) (B a : R) : 0 < a -> cont_line f -> (forall x, 0 <= f x) -> (forall x, f x <= B) -> line f 1 ->
  step_ok f B (fun h v => mean_exp (fun e => h (a*e)) v) (exp_chf a) (exp_next a f).
Proof.
  intros A0 Cf Pf Bf Lf. destruct (L_exists f B a A0 Cf Pf Bf) as [L HL]. unfold exp_next. rewrite (is_lim_seq_unique _ _ HL). cbn [real].
  split; [exact (econv_cont f a A0 Cf L)|]. split; [exact (econv_bound f B a A0 Cf Pf Bf L HL)|]. split; [exact (econv_line f B a A0 Cf Pf Bf Lf L HL)|].
  split; [exact (econv_mean f B a A0 Cf Pf Bf L HL)|exact (econv_fourier f B a A0 Cf Pf Bf Lf L HL)].
Qed.
Lemma fourier_opp f c : cont_line f -> fourier line (fun x => x) f c -> fourier line (fun x => x) (fun x => f (- x)) (fun u => c (- u)).
Proof.
  intros C F u. destruct (F (- u)) as [FC FS]. split.
  - eapply line_ext; [apply (line_opp (fun x => cos (- u*x) * f x)); [apply cont_cos; auto|exact FC]|]. intro x. cbv beta. replace (- u*- x) with (u*x) by ring. reflexivity.
  - eapply line_ext; [apply (line_opp (fun x => sin (- u*x) * f x)); [|exact FS]|].
    + apply cont_mult; auto. intro x. apply (ex_derive_continuous (V := R_NormedModule)). auto_derive; auto.
    + intro x. cbv beta. replace (- u*- x) with (u*x) by ring. reflexivity.
Qed.
Lemma cont_opp f : cont_line f -> cont_line (fun x => f (- x)).
Proof. intros C x. apply (continuous_comp (fun z => - z) f); [|apply C]. apply (ex_derive_continuous (V := R_NormedModule)). auto_derive; auto. Qed.
(** the same, with the opposite of an exponential variate *)
Definition exp_next_opp (a : R) (f : R -> R) : R -> R := fun x => exp_next a (fun y => f (- y)) (- x).
Lemma exp_step_opp (f : R -> R) (B a : R) : 0 < a -> cont_line f -> (forall x, 0 <= f x) -> (forall x, f x <= B) -> line f 1 ->
  step_ok f B (fun h v => mean_exp (fun e => h (- (a*e))) v) (fun u => exp_chf a (- u)) (exp_next_opp a f).
Proof.
  intros A0 Cf Pf Bf Lf. destruct (exp_step (fun x => f (- x)) B a A0 (cont_opp f Cf) (fun x => Pf (- x)) (fun x => Bf (- x)) (line_opp f 1 Cf Lf)) as (Cg & Bg & Lg & Mg & Fg).
  unfold exp_next_opp. set (g := exp_next a (fun y => f (- y))) in *. split; [apply cont_opp; auto|]. split; [intro; apply Bg|]. split; [apply line_opp; auto|]. split.
  - intro x. specialize (Mg (- x)). unfold mean_exp in *. revert Mg. apply is_RInt_gen_ext. exists (fun _ => True) (fun _ => True); [exact I|exists 0; auto|]. intros y z _ _ e _. replace (- (- x - a*e)) with (x - - (a*e)) by ring. reflexivity.
  - intros c F. apply fourier_opp in F; auto. specialize (Fg _ F). apply fourier_opp in Fg; auto. intro u. specialize (Fg u). cbv beta in Fg. rewrite Ropp_involutive in Fg. exact Fg.
Qed.
