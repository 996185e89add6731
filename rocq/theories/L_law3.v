(** Lemmas on means of exponentials of jumps, and of sums of increments. *)
From Coq Require Import List Arith Bool ZArith Reals Lra Lia.
From Coquelicot Require Import Coquelicot.
From Verif Require Import Base BaseNum BaseArr BaseNd BaseIdx M_process M_source S_mc S_process S_source L_nd L_process L_process2 L_source M_rv S_rv L_rv M_analytical S_analytical
  L_mix S_euler S_law P_chf L_law L_law2.
Import ListNotations.
Local Open Scope R_scope.

(** *** linear combinations of means *)
Definition linear_mean {A} (M : (A -> R) -> R -> Prop) : Prop :=
  (forall f h v, (forall x, f x = h x) -> M f v -> M h v) /\ (forall f h v w, M f v -> M h w -> M (fun x => f x + h x) (v + w)) /\
  (forall f v c, M f v -> M (fun x => c * f x) (c * v)) /\ (forall c, M (fun _ => c) c).
Lemma complex_scal {A} (M : (A -> R) -> R -> Prop) (HM : linear_mean M) f z c : complex_mean M f z -> complex_mean M (fun x => c * f x)%C (c * z)%C.
Proof.
  destruct HM as (E & P & S & _). intros [H1 H2]. split.
  - apply E with (fun x => fst c * fst (f x) + - snd c * snd (f x)). { intro x. unfold Cmult. cbn [fst]. ring. }
    replace (fst (c * z)%C) with (fst c * fst z + - snd c * snd z) by (unfold Cmult; cbn [fst]; ring). apply P; apply S; auto.
  - apply E with (fun x => fst c * snd (f x) + snd c * fst (f x)). { intro x. unfold Cmult. cbn [snd]. ring. }
    replace (snd (c * z)%C) with (fst c * snd z + snd c * fst z) by (unfold Cmult; cbn [snd]; ring). apply P; apply S; auto.
Qed.
Lemma complex_plus {A} (M : (A -> R) -> R -> Prop) (HM : linear_mean M) f h z y : complex_mean M f z -> complex_mean M h y -> complex_mean M (fun x => f x + h x)%C (z + y)%C.
Proof. destruct HM as (E & P & S & _). intros [H1 H2] [K1 K2]. split; cbn [fst snd Cplus]; apply P; auto. Qed.
Lemma complex_const {A} (M : (A -> R) -> R -> Prop) (HM : linear_mean M) c : complex_mean M (fun _ => c) c.
Proof. destruct HM as (E & P & S & K). split; apply K. Qed.
Lemma complex_ext {A} (M : (A -> R) -> R -> Prop) (HM : linear_mean M) f h z : (forall x, f x = h x) -> complex_mean M f z -> complex_mean M h z.
Proof. destruct HM as (E & _). intros X [H1 H2]. split; [eapply E; [|exact H1]|eapply E; [|exact H2]]; intro x; cbv beta; rewrite X; reflexivity. Qed.

Lemma exp_linear : linear_mean mean_exp.
Proof.
  unfold mean_exp. split; [|split; [|split]].
  - intros f h v E H. eapply is_RInt_gen_ext; [|exact H]. apply filter_forall. intros p x _. rewrite E. reflexivity.
  - intros f h v w H K. eapply is_RInt_gen_ext; [|exact (is_RInt_gen_plus _ _ _ _ H K)]. apply filter_forall. intros p x _. cbv beta. match goal with |- ?a = ?b => change (@eq R a b) end. unfold plus. cbn. ring.
  - intros f v c H. eapply is_RInt_gen_ext; [|exact (is_RInt_gen_scal _ c _ H)]. apply filter_forall. intros p x _. cbv beta. match goal with |- ?a = ?b => change (@eq R a b) end. unfold scal. cbn. unfold mult. cbn. ring.
  - intro c. assert (K := mean_exp_poly c 0 0). unfold mean_exp in K. replace (c + 0 + 2*0) with c in K by ring. eapply is_RInt_gen_ext; [|exact K]. apply filter_forall. intros p x _. match goal with |- ?a = ?b => change (@eq R a b) end. ring.
Qed.
Lemma uniform_linear : linear_mean mean_uniform.
Proof.
  unfold mean_uniform. split; [|split; [|split]].
  - intros f h v E H. eapply is_RInt_ext; [|exact H]. intros x _. apply E.
  - intros f h v w H K. exact (is_RInt_plus _ _ _ _ _ _ H K).
  - intros f v c H. exact (is_RInt_scal _ _ _ c _ H).
  - intro c. assert (K := is_RInt_const 0 1 c). change (scal (1 - 0) c) with ((1 - 0) * c) in K. replace ((1 - 0)*c) with c in K by ring. exact K.
Qed.

Lemma normal_linear : linear_mean mean_normal.
Proof.
  unfold mean_normal. assert (S : forall f v c, mean_normal f v -> mean_normal (fun x => c * f x) (c * v)).
  { intros f v c H. eapply is_RInt_gen_ext; [|exact (is_RInt_gen_scal _ c _ H)]. apply filter_forall. intros p x _. cbv beta. match goal with |- ?a = ?b => change (@eq R a b) end. unfold scal. cbn. unfold mult. cbn. ring. }
  assert (E : forall f h v, (forall x, f x = h x) -> mean_normal f v -> mean_normal h v).
  { intros f h v E H. eapply is_RInt_gen_ext; [|exact H]. apply filter_forall. intros p x _. rewrite E. reflexivity. }
  split; [exact E|split; [|split; [exact S|]]].
  - intros f h v w H K. eapply is_RInt_gen_ext; [|exact (is_RInt_gen_plus _ _ _ _ H K)]. apply filter_forall. intros p x _. cbv beta. match goal with |- ?a = ?b => change (@eq R a b) end. unfold plus. cbn. ring.
  - intro c. change (mean_normal (fun _ => c) c). destruct (normal_exp 0%C) as [H _]. apply (S _ _ c) in H.
    replace (c * fst (cexp (0 * 0 * RtoC (/2))%C)) with c in H. 2: { rewrite Cmult_0_l, Cmult_0_l, cexp_0. cbn [fst RtoC]. ring. }
    eapply E; [|exact H]. intro x. cbv beta. rewrite Cmult_0_l, cexp_0. cbn [fst RtoC]. ring.
Qed.

Section Jumps.
Context {G : Type}.
Variable L : nat -> (G -> R) -> R.
Hypothesis HL : is_law L.

(** *** normal jumps *)
Section Normal.
Variable std_normal : list nat -> G -> res (arr R) * G.
Hypothesis N_law : forall m j, normal_law L std_normal [m; j].
Definition normal_J := normal_jump.
Definition norm_sampler (a b : R) : sampler := norm_rvs std_normal (ascalar a) (ascalar b).
Lemma norm_eq a b m j g : norm_sampler a b [m; j] g = dbind (std_normal [m; j]) (fun e => dret (mkArr [m; j] (fun ix => a + b * dat e ix))) g.
Proof. reflexivity. Qed.
Lemma norm_ok a b : rvs_ok (rvs_of (Fixed _ (norm_sampler a b))).
Proof. intros t m j g y g'. cbn [rvs_of]. rewrite norm_eq. unfold dbind, dret. destruct (std_normal [m; j] g) as [[e|] g1]; [|discriminate]. intro H. injection H as <- _. reflexivity. Qed.
Lemma norm_jumps a b : jump_law L (rvs_of (Fixed _ (norm_sampler a b))) (fun _ => True) (normal_J a b) 1.
Proof.
  intros t m j u D Psi z _ H. eapply em_ext; [exact HL| |].
  2: { apply (em_draw L HL (std_normal [m; j]) [m; j] _ _ (N_law m j) D
          (fun e g' => cprod (fun ix => cexp (u ix * RtoC (a + b * dat e ix))%C) (ndindex [m; j]) * Psi g')%C (fun ix x => cexp (u ix * RtoC (a + b*x))%C) (fun ix => normal_J a b (u ix))).
       - intros e _ _. apply em_scal; auto.
       - intros ix _. eapply complex_ext; [| |].
         + exact normal_linear.
         + intro x. instantiate (1 := fun x => (cexp (u ix * RtoC a) * cexp ((u ix * RtoC b) * RtoC x))%C). cbv beta. rewrite <- cexp_add. f_equal. rewrite RtoC_plus, RtoC_mult. ring.
         + replace (normal_J a b (u ix)) with (cexp (u ix * RtoC a) * cexp ((u ix * RtoC b) * (u ix * RtoC b) * RtoC (/2)))%C; [apply complex_scal; [exact normal_linear|apply normal_exp]|].
           unfold normal_J, normal_jump. rewrite <- cexp_add. f_equal. unfold Rdiv. rewrite !RtoC_mult. ring. }
  intro g. unfold rvs_of. cbv beta iota. unfold after. rewrite norm_eq. unfold dbind, dret. destruct (std_normal [m; j] g) as [[e|] g']; [|reflexivity]. f_equal. rewrite cexp_csum. reflexivity.
Qed.
End Normal.

(** *** double exponential jumps *)
Section Double.
Variables (std_exp std_uniform : list nat -> G -> res (arr R) * G).
Hypothesis E_law : forall m j, exp_law L std_exp [m; j].
Hypothesis U_law : forall m j, uniform_law L std_uniform [m; j].
Variables (a b pa : R).
Hypothesis Hpa : 0 <= pa <= 1.
Definition double_J := double_jump a b pa.
Definition double_dom := double_domain a b.
Definition double_sampler : sampler := double_rvs std_exp std_uniform (mkDouble (ascalar a) (ascalar b) (ascalar pa) (ascalar (1 - pa))).
Lemma double_eq m j g : double_sampler [m; j] g =
  dbind (std_exp [m; j]) (fun e1 => dbind (std_exp [m; j]) (fun e2 => dbind (std_uniform [m; j]) (fun v =>
    dret (mkArr [m; j] (fun ix => if nlt pa (dat v ix) then nsub nzero (b * dat e2 ix) else a * dat e1 ix))))) g.
Proof.
  unfold double_sampler, double_rvs, frozen. cbn [da db dpa forallb]. change (can (shp (ascalar a)) [m; j]) with true. change (can (shp (ascalar b)) [m; j]) with true. cbn [andb].
  unfold dbind, dret. destruct (std_exp [m; j] g) as [[e1|] g1]; [|reflexivity]. destruct (std_exp [m; j] g1) as [[e2|] g2]; [|reflexivity]. destruct (std_uniform [m; j] g2) as [[v|] g3]; reflexivity.
Qed.
Lemma double_ok : rvs_ok (rvs_of (Fixed _ double_sampler)).
Proof.
  intros t m j g y g'. cbn [rvs_of]. rewrite double_eq. unfold dbind, dret. destruct (std_exp [m; j] g) as [[e1|] g1]; [|discriminate]. destruct (std_exp [m; j] g1) as [[e2|] g2]; [|discriminate]. destruct (std_uniform [m; j] g2) as [[v|] g3]; [|discriminate].
  intro H. injection H as <- _. reflexivity.
Qed.
Definition up (u : C) (e : R) : C := cexp (u * RtoC a * RtoC e)%C.
Definition down (u : C) (e : R) : C := cexp (- (u * RtoC b) * RtoC e)%C.
Lemma double_jumps : jump_law L (rvs_of (Fixed _ double_sampler)) double_dom double_J 3.
Proof.
  intros t m j u D Psi z HD H. set (s := [m; j]).
  set (P3 := fun (e1 e2 v : arr R) g' => (cprod (fun ix => if Rlt_dec pa (dat v ix) then down (u ix) (dat e2 ix) else up (u ix) (dat e1 ix)) (ndindex s) * Psi g')%C).
  assert (K3 : forall e1 e2, em L (S D) (after (std_uniform s) (P3 e1 e2)) (cprod (fun ix => RtoC pa * up (u ix) (dat e1 ix) + RtoC (1 - pa) * down (u ix) (dat e2 ix))%C (ndindex s) * z)%C).
  { intros e1 e2. apply (em_draw L HL (std_uniform s) s _ _ (U_law m j) D (P3 e1 e2) (fun ix v => if Rlt_dec pa v then down (u ix) (dat e2 ix) else up (u ix) (dat e1 ix))).
    - intros v _ _. unfold P3. apply em_scal; auto.
    - intros ix _. split.
      + replace (fst _) with (pa * fst (up (u ix) (dat e1 ix)) + (1 - pa) * fst (down (u ix) (dat e2 ix))) by (unfold Cplus, Cmult, RtoC; cbn [fst snd]; ring).
        apply mean_step; auto; intros v Hv; destruct (Rlt_dec pa v); auto; lra.
      + replace (snd _) with (pa * snd (up (u ix) (dat e1 ix)) + (1 - pa) * snd (down (u ix) (dat e2 ix))) by (unfold Cplus, Cmult, RtoC; cbn [fst snd]; ring).
        apply mean_step; auto; intros v Hv; destruct (Rlt_dec pa v); auto; lra. }
  assert (MU : forall ix, complex_mean mean_exp (up (u ix)) (/ (1 - RtoC a * u ix))%C).
  { intro ix. destruct (HD ix) as [H1 _]. replace (RtoC a * u ix)%C with (u ix * RtoC a)%C by ring. apply exp_exp. unfold Cmult, RtoC. cbn [fst snd]. lra. }
  assert (MD : forall ix, complex_mean mean_exp (down (u ix)) (/ (1 + RtoC b * u ix))%C).
  { intro ix. destruct (HD ix) as [_ H1]. replace (1 + RtoC b * u ix)%C with (1 - - (u ix * RtoC b))%C by ring. apply exp_exp. unfold Copp, Cmult, RtoC. cbn [fst snd]. lra. }
  assert (K2 : forall e1, em L (S (S D)) (after (std_exp s) (fun e2 => after (std_uniform s) (P3 e1 e2)))
     (cprod (fun ix => RtoC pa * up (u ix) (dat e1 ix) + RtoC (1 - pa) * / (1 + RtoC b * u ix))%C (ndindex s) * z)%C).
  { intro e1. apply (em_draw L HL (std_exp s) s _ _ (E_law m j) (S D) (fun e2 => after (std_uniform s) (P3 e1 e2)) (fun ix e => RtoC pa * up (u ix) (dat e1 ix) + RtoC (1 - pa) * down (u ix) e)%C).
    - intros e2 _ _. apply K3.
    - intros ix _. apply complex_plus; [exact exp_linear|apply complex_const; exact exp_linear|apply complex_scal; [exact exp_linear|apply MD]]. }
  assert (K1 : em L (S (S (S D))) (after (std_exp s) (fun e1 => after (std_exp s) (fun e2 => after (std_uniform s) (P3 e1 e2)))) (cprod (fun ix => double_J (u ix)) (ndindex s) * z)%C).
  { apply (em_draw L HL (std_exp s) s _ _ (E_law m j) (S (S D)) (fun e1 => after (std_exp s) (fun e2 => after (std_uniform s) (P3 e1 e2))) (fun ix e => RtoC pa * up (u ix) e + RtoC (1 - pa) * / (1 + RtoC b * u ix))%C).
    - intros e1 _ _. apply K2.
    - intros ix _. unfold double_J, double_jump. apply complex_plus; [exact exp_linear|apply complex_scal; [exact exp_linear|apply MU]|apply complex_const; exact exp_linear]. }
  eapply em_ext; [exact HL| |exact K1]. intro g. unfold rvs_of. cbv beta iota. unfold after. rewrite double_eq. fold s. unfold dbind, dret.
  destruct (std_exp s g) as [[e1|] g1]; [|reflexivity]. destruct (std_exp s g1) as [[e2|] g2]; [|reflexivity]. destruct (std_uniform s g2) as [[v|] g3]; [|reflexivity].
  unfold P3. f_equal. rewrite cexp_csum. apply cprod_ext. intros ix _. cbn [dat]. cbn [nlt Num_R nsub nzero]. unfold up, down. destruct (Rlt_dec pa (dat v ix)).
  - f_equal. rewrite RtoC_minus, RtoC_mult. ring.
  - f_equal. rewrite RtoC_mult. ring.
Qed.
End Double.
End Jumps.
