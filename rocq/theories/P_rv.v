(** Properties of jump distributions: C32. *)
From Coq Require Import List Arith Bool ZArith Reals Lra Psatz.
From Coquelicot Require Import Coquelicot.
From Verif Require Import Base BaseNum BaseArr BaseNd M_source M_rv S_process S_source S_rv L_nd L_source L_rv L_gauss.
Import ListNotations.
Local Open Scope R_scope.
Implicit Types a b pa : R.

Lemma exp_variate_R a e : exp_variate a e = a*e.
Proof.
  unfold exp_variate, zmul. rewrite nsign_R, nabs_R. change (nmul (V := R)) with Rmult. change (nsub (V := R)) with Rminus. change (@nzero R _) with 0.
  destruct (Rlt_dec 0 a); [|destruct (Rlt_dec a 0)]; cbn [Z.eqb Pos.eqb].
  - rewrite Rabs_right by lra. ring.
  - rewrite Rabs_left by lra. ring.
  - replace a with 0 by lra. ring.
Qed.
Lemma exp_mean_R a : exp_mean a = a.
Proof. pose proof (exp_variate_R a 1) as H. rewrite Rmult_1_r in H. rewrite <- H at 2. unfold exp_mean, exp_variate. f_equal. change (nmul (V := R)) with Rmult. ring. Qed.
Lemma exp_var_R a : exp_var a = a*a.
Proof. unfold exp_var. rewrite nabs_R. change (nmul (V := R)) with Rmult. rewrite <- Rabs_mult. apply Rabs_right. nra. Qed.
Lemma mean_exp_ext h k v : (forall e, h e = k e) -> mean_exp h v -> mean_exp k v.
Proof.
  intros H. unfold mean_exp. apply is_RInt_gen_ext. exists (fun _ => True) (fun _ => True); [exact I|exists 0; auto|]. intros x y _ _ z _. rewrite H. reflexivity.
Qed.
Lemma mean_exp_poly_eq (a b c v : R) : v = a + b + 2*c -> mean_exp (fun e => a + b*e + c*(e*e)) v.
Proof. intros ->. apply mean_exp_poly. Qed.
Lemma nlt_R x y : nlt (V := R) x y = if Rlt_dec x y then true else false.
Proof. reflexivity. Qed.

(** *** exponential, of either sign *)
Theorem C32_exp_density : mean_exp (fun _ => 1) 1.
Proof. apply (mean_exp_ext (fun e => 1 + 0*e + 0*(e*e))); [intro; ring|]. apply mean_exp_poly_eq; ring. Qed.
Theorem C32_exp_mean a : mean_exp (fun e => exp_variate a e) (exp_mean a).
Proof. rewrite exp_mean_R. apply (mean_exp_ext (fun e => 0 + a*e + 0*(e*e))); [intro; rewrite exp_variate_R; ring|]. apply mean_exp_poly_eq; ring. Qed.
Theorem C32_exp_var a : mean_exp (fun e => (exp_variate a e - exp_mean a)^2) (exp_var a).
Proof.
  rewrite exp_mean_R, exp_var_R. apply (mean_exp_ext (fun e => a*a + - (2*a*a)*e + a*a*(e*e))); [intro; rewrite exp_variate_R; ring|]. apply mean_exp_poly_eq; ring.
Qed.
Theorem C32_exp_std a : 0 <= exp_std a /\ exp_std a*exp_std a = exp_var a.
Proof. unfold exp_std. change (nsqrt (V := R)) with sqrt. split; [apply sqrt_pos|]. apply sqrt_sqrt. rewrite exp_var_R. nra. Qed.
(** infinity exactly when it is *)
Theorem C32_exp_exp_mean a : match exp_exp_mean a with
  | Some v => mean_exp (fun e => exp (exp_variate a e)) v
  | None => infinite_mean_exp (fun e => exp (exp_variate a e))
  end.
Proof.
  unfold exp_exp_mean. rewrite nlt_R. change (@none R _) with 1. destruct (Rlt_dec a 1).
  - apply (mean_exp_ext (fun e => exp (a*e))); [intro; rewrite exp_variate_R; reflexivity|]. apply mean_exp_exp. auto.
  - destruct (infinite_mean_exp_exp a) as [H1 H2]; [lra|]. split; [intros; apply exp_pos|]. revert H2. apply filterlim_ext. intro M. apply RInt_ext. intros x _. rewrite exp_variate_R. reflexivity.
Qed.
(** domain *)
Theorem C32_exp_new (a : arr R) : exp_new a = (if existsb (fun x => if Req_EM_T x 0 then true else false) (map (dat a) (ndindex (shp a))) then Err ValueError else Ok a).
Proof.
  unfold exp_new, any, ravel. replace (existsb iszero (map (dat a) (ndindex (shp a)))) with (existsb (fun x => if Req_EM_T x 0 then true else false) (map (dat a) (ndindex (shp a)))); auto.
  induction (map (dat a) (ndindex (shp a))) as [|x l IH]; auto. cbn [existsb]. rewrite IH. f_equal. unfold iszero. rewrite !nlt_R. change (@nzero R _) with 0. destruct (Req_EM_T x 0), (Rlt_dec x 0), (Rlt_dec 0 x); cbn; auto; exfalso; lra.
Qed.
(** the documented density, a*exp(-a*x), is not that of the variates unless a = 1: their mean is a, not 1/a *)
Theorem C32_documented_scale_refuted : exists a, 0 < a /\ exists v, mean_exp (fun e => exp_variate a e) v /\
  ~ is_RInt_gen (fun x => x*(a*exp (- (a*x)))) (at_point 0) (Rbar_locally p_infty) v.
Proof.
  exists 2. split; [lra|]. exists 2. split; [pose proof (C32_exp_mean 2) as M; rewrite exp_mean_R in M; exact M|]. intro H.
  assert (K : is_RInt_gen (fun x => x*(2*exp (- (2*x)))) (at_point 0) (Rbar_locally p_infty) (/2)).
  { set (F := fun x : R => - ((x + /2)*exp (- (2*x)))). replace (/2) with (0 - F 0) by (unfold F; rewrite Rmult_0_r, Ropp_0, exp_0; ring). apply integral_to_infinity.
    - intro x. unfold F. auto_derive; auto. field.
    - intro x. apply (ex_derive_continuous (V := R_NormedModule)). auto_derive; auto.
    - unfold F. apply is_lim_ext with (fun x => - /2*((2*x)*exp (- (2*x))) + - /2*exp (- (2*x))); [intro x; field|].
      replace (Finite 0) with (Rbar_plus 0 0) by (simpl; f_equal; ring). apply is_lim_plus'.
      + replace (Finite 0) with (Rbar_mult (- /2) 0) by (simpl; f_equal; ring). apply is_lim_scal_l. apply (is_lim_comp (fun y => y*exp (- y)) (fun x => 2*x) p_infty 0 p_infty); [apply x_exp_neg_lim| |exists 0; intros y Y; discriminate].
        assert (E : Rbar_mult 2 p_infty = p_infty). { unfold Rbar_mult, Rbar_mult'. destruct (Rle_dec 0 2) as [P|P]; [|exfalso; lra]. destruct (Rle_lt_or_eq_dec 0 2 P); [reflexivity|exfalso; lra]. } rewrite <- E at 2. apply is_lim_scal_l, is_lim_id.
      + replace (Finite 0) with (Rbar_mult (- /2) 0) by (simpl; f_equal; ring). apply is_lim_scal_l, exp_neg_lim. lra. }
  pose proof (is_RInt_gen_unique _ _ H) as U1. pose proof (is_RInt_gen_unique _ _ K) as U2. rewrite U1 in U2. lra.
Qed.

(** *** double exponential *)
Lemma double_plus a b pa e1 e2 u : u <= pa -> double_variate a b pa e1 e2 u = a*e1.
Proof. intro U. unfold double_variate. rewrite nlt_R. destruct (Rlt_dec pa u); [exfalso; lra|reflexivity]. Qed.
Lemma double_minus a b pa e1 e2 u : pa < u -> double_variate a b pa e1 e2 u = - (b*e2).
Proof. intro U. unfold double_variate. rewrite nlt_R. destruct (Rlt_dec pa u); [|exfalso; lra]. change (nsub (V := R)) with Rminus. change (nmul (V := R)) with Rmult. change (@nzero R _) with 0. ring. Qed.
Lemma mean_exp_const v : mean_exp (fun _ => v) v.
Proof. apply (mean_exp_ext (fun e => v + 0*e + 0*(e*e))); [intro; ring|]. apply mean_exp_poly_eq; ring. Qed.
Lemma mean_double_split a b pa h A B : 0 <= pa <= 1 -> (0 < pa -> mean_exp (fun e => h (a*e)) A) -> (pa < 1 -> mean_exp (fun e => h (- (b*e))) B) ->
  mean_double (fun e1 e2 u => h (double_variate a b pa e1 e2 u)) (pa*A + (1 - pa)*B).
Proof.
  intros P HA HB. exists (fun u => if Rle_dec u pa then A else B), (fun u e1 => if Rle_dec u pa then h (a*e1) else B). repeat split.
  - intros u e1 U. destruct (Rle_dec u pa) as [L|L].
    + apply (mean_exp_ext (fun _ => h (a*e1))); [intro; rewrite double_plus; auto|]. apply mean_exp_const.
    + apply (mean_exp_ext (fun e => h (- (b*e)))); [intro; rewrite double_minus by lra; auto|]. apply HB. lra.
  - intros u U. destruct (Rle_dec u pa) as [L|L]; [apply HA; lra|apply mean_exp_const].
  - apply mean_step; auto; intros u U; destruct (Rle_dec u pa); auto; exfalso; lra.
Qed.
Definition double_domain (a b pa : R) : Prop := 0 < a /\ 0 < b /\ 0 <= pa <= 1.
Theorem C32_double_mean a b pa : double_domain a b pa -> mean_double (double_variate a b pa) (double_mean a b pa (1 - pa)).
Proof.
  intros (A & B & P). replace (double_mean a b pa (1 - pa)) with (pa*a + (1 - pa)*(- b)) by (unfold double_mean; change (nsub (V := R)) with Rminus; change (nmul (V := R)) with Rmult; ring).
  apply (mean_double_split a b pa (fun x => x)); auto; intros _.
  - apply (mean_exp_ext (fun e => 0 + a*e + 0*(e*e))); [intro; ring|]. apply mean_exp_poly_eq; ring.
  - apply (mean_exp_ext (fun e => 0 + - b*e + 0*(e*e))); [intro; ring|]. apply mean_exp_poly_eq; ring.
Qed.
Theorem C32_double_var a b pa : double_domain a b pa ->
  mean_double (fun e1 e2 u => (double_variate a b pa e1 e2 u - double_mean a b pa (1 - pa))^2) (double_var a b pa (1 - pa)).
Proof.
  intros (A & B & P). set (m := double_mean a b pa (1 - pa)). assert (M : m = pa*a - (1 - pa)*b) by reflexivity.
  replace (double_var a b pa (1 - pa)) with (pa*(m*m + - (2*m*a) + 2*(a*a)) + (1 - pa)*(m*m + 2*m*b + 2*(b*b))).
  2: { rewrite M. unfold double_var. change (nadd (V := R)) with Rplus. change (nmul (V := R)) with Rmult. ring. }
  apply (mean_double_split a b pa (fun x => (x - m)^2)); auto; intros _.
  - apply (mean_exp_ext (fun e => m*m + - (2*m*a)*e + a*a*(e*e))); [intro; ring|]. apply mean_exp_poly_eq; ring.
  - apply (mean_exp_ext (fun e => m*m + 2*m*b*e + b*b*(e*e))); [intro; ring|]. apply mean_exp_poly_eq; ring.
Qed.
Theorem C32_double_std a b pa : double_domain a b pa -> 0 <= double_std a b pa (1 - pa) /\ double_std a b pa (1 - pa)*double_std a b pa (1 - pa) = double_var a b pa (1 - pa).
Proof.
  intros (A & B & P). unfold double_std. change (nsqrt (V := R)) with sqrt. split; [apply sqrt_pos|]. apply sqrt_sqrt. unfold double_var. change (nadd (V := R)) with Rplus. change (nmul (V := R)) with Rmult.
  assert (0 <= pa*(1 - pa)) by nra. repeat apply Rplus_le_le_0_compat; apply Rmult_le_pos; try lra; nra.
Qed.
Theorem C32_double_exp_mean a b pa v : double_domain a b pa -> double_exp_mean a b pa (1 - pa) = Some v ->
  a < 1 /\ mean_double (fun e1 e2 u => exp (double_variate a b pa e1 e2 u)) v.
Proof.
  intros (A & B & P). unfold double_exp_mean. rewrite nlt_R. change (@none R _) with 1. destruct (Rlt_dec a 1) as [L|L]; [|discriminate]. intro E. injection E as <-. split; auto.
  change (nadd (V := R)) with Rplus. change (ndiv (V := R)) with Rdiv. change (nsub (V := R)) with Rminus.
  replace (pa/(1 - a) + (1 - pa)/(1 + b)) with (pa*(1/(1 - a)) + (1 - pa)*(1/(1 - - b))) by (field; lra).
  apply (mean_double_split a b pa exp); auto; intros _.
  - apply mean_exp_exp. auto.
  - apply (mean_exp_ext (fun e => exp (- b*e))); [intro; f_equal; ring|]. apply mean_exp_exp. lra.
Qed.
(** infinite: it is, on the event u <= pa, of probability pa *)
Theorem C32_double_infinite a b pa : double_domain a b pa -> double_exp_mean a b pa (1 - pa) = None ->
  1 <= a /\ forall u e2, u <= pa -> infinite_mean_exp (fun e1 => exp (double_variate a b pa e1 e2 u)).
Proof.
  intros (A & B & P). unfold double_exp_mean. rewrite nlt_R. change (@none R _) with 1. destruct (Rlt_dec a 1) as [L|L]; [discriminate|]. intros _. split; [lra|]. intros u e2 U.
  destruct (infinite_mean_exp_exp a) as [H1 H2]; [lra|]. split; [intros; apply exp_pos|]. revert H2. apply filterlim_ext. intro M. apply RInt_ext. intros x _. rewrite double_plus; auto.
Qed.
(** ... which may have no probability *)
Theorem C32_double_infinite_refuted : exists a b pa, double_domain a b pa /\ double_exp_mean a b pa (1 - pa) = None /\
  exists v, mean_double (fun e1 e2 u => exp (double_variate a b pa e1 e2 u)) v.
Proof.
  exists 2, 1, 0. split; [repeat split; lra|]. split; [unfold double_exp_mean; rewrite nlt_R; change (@none R _) with 1; destruct (Rlt_dec 2 1); [exfalso; lra|reflexivity]|].
  exists (0*0 + (1 - 0)*(1/(1 - - 1))). apply (mean_double_split 2 1 0 exp); [lra|intro; exfalso; lra|intros _].
  apply (mean_exp_ext (fun e => exp (- 1*e))); [intro; f_equal; ring|]. apply mean_exp_exp. lra.
Qed.
(** domain *)
Lemma any_iff (p : R -> bool) (a : arr R) : any p a = true <-> exists ix, inb (shp a) ix /\ p (dat a ix) = true.
Proof.
  unfold any, ravel. rewrite existsb_exists. split.
  - intros (x & I & P). apply in_map_iff in I. destruct I as (ix & <- & I). exists ix. split; auto. apply in_ndindex. auto.
  - intros (ix & I & P). exists (dat a ix). split; auto. apply in_map. apply in_ndindex. auto.
Qed.
Theorem C32_double_new (a b pa : arr R) s1 s : bshape (shp a) (shp b) = Some s1 -> bshape s1 (shp pa) = Some s ->
  ((exists d, double_new a b pa = Ok d) <-> forall ix, inb s ix -> double_domain (bget a ix) (bget b ix) (bget pa ix)) /\
  (forall d, double_new a b pa = Ok d -> shp (da d) = s /\ forall ix, inb s ix ->
    dat (da d) ix = bget a ix /\ dat (db d) ix = bget b ix /\ dat (dpa d) ix = bget pa ix /\ dat (dpb d) ix = 1 - bget pa ix) /\
  (forall e, double_new a b pa = Err e -> e = ValueError).
Proof.
  intros E1 E2. unfold double_new. rewrite E1, E2. match goal with |- context [if ?b then _ else _] => destruct b eqn:C end.
  - split; [split; [intros [d H]; discriminate|]|split; intros; congruence]. intro H. exfalso. rewrite !orb_true_iff, !any_iff in C. cbn [shp dat] in C.
    destruct C as [[[C|C]|C]|C]; destruct C as (ix & I & C); destruct (H ix I) as (A & B & P); rewrite nlt_R in C; change (@nzero R _) with 0 in C; change (@none R _) with 1 in C; match type of C with context [Rlt_dec ?x ?y] => destruct (Rlt_dec x y) end; cbn in C; try discriminate; lra.
  - split; [|split; [|congruence]].
    + split; [intros _|eauto]. intros ix I. rewrite !orb_false_iff in C. destruct C as [[[C1 C2] C3] C4].
      assert (K : forall p (x : arr R), any p x = false -> inb (shp x) ix -> p (dat x ix) = false) by (intros p x F J; destruct (p (dat x ix)) eqn:Q; auto; assert (any p x = true) by (apply any_iff; eauto); congruence).
      apply K in C1; auto. apply K in C2; auto. apply K in C3; auto. apply K in C4; auto. cbn [shp dat] in *. rewrite nlt_R in *. change (@nzero R _) with 0 in *. change (@none R _) with 1 in *.
      unfold double_domain. destruct (Rlt_dec 0 (bget a ix)), (Rlt_dec 0 (bget b ix)), (Rlt_dec 1 (bget pa ix)), (Rlt_dec (bget pa ix) 0); try discriminate. repeat split; lra.
    + intros d H. injection H as <-. split; [reflexivity|]. intros ix I. cbn [da db dpa dpb dat amap]. repeat split.
Qed.
(** arrays of parameters: means and variances, entry by entry, with the parameters broadcast *)
Theorem C32_double_moments (a b pa : arr R) s1 s d : bshape (shp a) (shp b) = Some s1 -> bshape s1 (shp pa) = Some s -> double_new a b pa = Ok d ->
  shp (double_means d) = s /\ shp (double_vars d) = s /\
  forall ix, inb s ix -> let x := double_variate (bget a ix) (bget b ix) (bget pa ix) in
    mean_double x (dat (double_means d) ix) /\ mean_double (fun e1 e2 u => (x e1 e2 u - dat (double_means d) ix)^2) (dat (double_vars d) ix).
Proof.
  intros E1 E2 N. destruct (C32_double_new a b pa s1 s E1 E2) as (D & F & _). pose proof (proj1 D (ex_intro _ d N)) as DD. destruct (F d N) as [S G].
  split; [exact S|]. split; [exact S|]. intros ix I x. unfold double_means, double_vars. cbn [dat]. destruct (G ix I) as (-> & -> & -> & ->).
  split; [apply C32_double_mean|apply C32_double_var]; apply DD; exact I.
Qed.
(** one value of the parameters gives the exponential mean; several raise, though each has one *)
Theorem C32_double_one (d : double R) : match ndindex (shp (da d)) with
  | [ix] => exists m, double_exp_means d = Ok m /\ dat m ix = double_exp_mean (dat (da d) ix) (dat (db d) ix) (dat (dpa d) ix) (dat (dpb d) ix)
  | _ => double_exp_means d = Err ValueError
  end.
Proof.
  unfold double_exp_means, truth, ravel. cbn [amap shp dat]. destruct (ndindex (shp (da d))) as [|ix [|ix2 l]]; cbn [map]; try reflexivity.
  cbv beta iota delta [rbind]. eexists. split; [reflexivity|]. cbn [dat]. unfold double_exp_mean. destruct (nlt (dat (da d) ix) none); reflexivity.
Qed.
Theorem C32_double_arrays_refuted : exists (a b pa : arr R) d, double_new a b pa = Ok d /\ double_exp_means d = Err ValueError /\
  (forall ix, inb (shp (da d)) ix -> double_exp_mean (dat (da d) ix) (dat (db d) ix) (dat (dpa d) ix) (dat (dpb d) ix) <> None) /\
  exp_new (da d) = Ok (da d) /\ forall ix, inb (shp (da d)) ix -> dat (exp_exp_means (da d)) ix = exp_exp_mean (dat (da d) ix).
Proof.
  set (a := vec [/2; /3]). set (b := ascalar 1). set (pa := ascalar (/2)).
  assert (D : forall ix, inb [2]%nat ix -> bget a ix = /2 \/ bget a ix = /3).
  { intros ix I. inversion I as [|i ? ? ? L J]; subst. inversion J; subst. destruct i as [|[|i]]; [left; reflexivity|right; reflexivity|lia]. }
  destruct (C32_double_new a b pa [2]%nat [2]%nat eq_refl eq_refl) as (H1 & H2 & _). destruct (proj2 H1) as [d N].
  { intros ix I. unfold double_domain. replace (bget b ix) with 1 by reflexivity. replace (bget pa ix) with (/2) by reflexivity. destruct (D ix I) as [-> | ->]; lra. }
  specialize (H2 d N). destruct H2 as [S H2]. exists a, b, pa, d. split; [exact N|]. split; [pose proof (C32_double_one d) as O; rewrite S in O; exact O|]. rewrite S. split; [|split].
  - intros ix I. destruct (H2 ix I) as (-> & _). unfold double_exp_mean. rewrite nlt_R. change (@none R _) with 1. destruct (Rlt_dec (bget a ix) 1) as [L|L]; [discriminate|]. destruct (D ix I) as [E|E]; rewrite E in L; exfalso; lra.
  - unfold exp_new. destruct (any iszero (da d)) eqn:Q; auto. apply any_iff in Q. destruct Q as (ix & I & Q). rewrite S in I. destruct (H2 ix I) as (E & _). rewrite E in Q. unfold iszero in Q. rewrite !nlt_R in Q. change (@nzero R _) with 0 in Q. destruct (Rlt_dec (bget a ix) 0), (Rlt_dec 0 (bget a ix)); try discriminate. destruct (D ix I); exfalso; lra.
  - reflexivity.
Qed.
(** *** uniform *)
Theorem C32_uniform_exp_mean a b : a <> b -> mean_uniform (fun u => exp (uniform_variate a b u)) (uniform_exp_mean a b).
Proof.
  intro N. unfold mean_uniform. set (F := fun u => exp (a + (b - a)*u)/(b - a)). replace (uniform_exp_mean a b) with (F 1 - F 0).
  - apply (is_RInt_derive (V := R_CompleteNormedModule) F).
    + intros x _. unfold F, uniform_variate. change (nadd (V := R)) with Rplus. change (nsub (V := R)) with Rminus. change (nmul (V := R)) with Rmult. auto_derive; auto. field. lra.
    + intros x _. apply (ex_derive_continuous (V := R_NormedModule)). unfold uniform_variate. change (nadd (V := R)) with Rplus. change (nsub (V := R)) with Rminus. change (nmul (V := R)) with Rmult. auto_derive; auto.
  - unfold F, uniform_exp_mean. change (nexp (V := R)) with exp. change (nsub (V := R)) with Rminus. change (ndiv (V := R)) with Rdiv. replace (a + (b - a)*1) with b by ring. replace (a + (b - a)*0) with a by ring. field. lra.
Qed.
(** *** normal *)
Lemma mean_normal_ext h k v : (forall e, h e = k e) -> mean_normal h v -> mean_normal k v.
Proof.
  intros H. unfold mean_normal. apply is_RInt_gen_ext. exists (fun _ => True) (fun _ => True); [exists 0; auto|exists 0; auto|]. intros x y _ _ z _. rewrite H. reflexivity.
Qed.
Theorem C32_normal_density : mean_normal (fun _ => 1) 1.
Proof. apply (mean_normal_ext (fun z => 1 + 0*z + 0*(z*z))); [intro; ring|]. pose proof (mean_normal_poly 1 0 0) as M. rewrite Rplus_0_r in M. exact M. Qed.
Theorem C32_normal_moments a b : mean_normal (fun z => norm_variate a b z) a /\ mean_normal (fun z => (norm_variate a b z - a)^2) (b*b).
Proof.
  unfold norm_variate. change (nadd (V := R)) with Rplus. change (nmul (V := R)) with Rmult. split.
  - apply (mean_normal_ext (fun z => a + b*z + 0*(z*z))); [intro; ring|]. pose proof (mean_normal_poly a b 0) as M. rewrite Rplus_0_r in M. exact M.
  - apply (mean_normal_ext (fun z => 0 + 0*z + b*b*(z*z))); [intro; ring|]. pose proof (mean_normal_poly 0 0 (b*b)) as M. rewrite Rplus_0_l in M. exact M.
Qed.
Theorem C32_normal_exp_mean a b : mean_normal (fun z => exp (norm_variate a b z)) (norm_exp_mean a b).
Proof. apply mean_normal_exp. Qed.
Example C32_ex : exp_exp_mean (-1) = Some (1/(1 - -1)) /\ exp_exp_mean 1 = None /\ double_mean 1 2 (1/4) (1 - 1/4) = - (5/4) /\ double_var 1 2 (1/4) (1 - 1/4) = 79/16.
Proof.
  unfold exp_exp_mean. rewrite !nlt_R. change (@none R _) with 1. repeat split.
  - destruct (Rlt_dec (-1) 1); [reflexivity|exfalso; lra].
  - destruct (Rlt_dec 1 1); [exfalso; lra|reflexivity].
  - unfold double_mean. change (nsub (V := R)) with Rminus. change (nmul (V := R)) with Rmult. field.
  - unfold double_var. change (nadd (V := R)) with Rplus. change (nmul (V := R)) with Rmult. field.
Qed.
Print Assumptions C32_exp_density.
Print Assumptions C32_exp_mean.
Print Assumptions C32_exp_var.
Print Assumptions C32_exp_std.
Print Assumptions C32_exp_exp_mean.
Print Assumptions C32_exp_new.
Print Assumptions C32_documented_scale_refuted.
Print Assumptions C32_double_mean.
Print Assumptions C32_double_var.
Print Assumptions C32_double_std.
Print Assumptions C32_double_exp_mean.
Print Assumptions C32_double_infinite.
Print Assumptions C32_double_infinite_refuted.
Print Assumptions C32_double_new.
Print Assumptions C32_double_moments.
Print Assumptions C32_double_one.
Print Assumptions C32_double_arrays_refuted.
Print Assumptions C32_uniform_exp_mean.
Print Assumptions C32_normal_density.
Print Assumptions C32_normal_moments.
Print Assumptions C32_normal_exp_mean.
