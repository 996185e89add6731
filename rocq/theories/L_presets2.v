(** Lemmas on the square root diffusions. *)
From Coq Require Import String List Arith Bool ZArith Reals Lra Lia Permutation.
From Verif Require Import Base BaseOrd BaseNum BaseArr M_paths S_paths S_run L_ord L_paths8
  M_sde S_sde S_sdes L_sde L_sde2 L_sde3 L_sde4 L_pack L_sim L_sdes L_sdes2 M_presets S_presets L_presets.
Import ListNotations.

Section Inv.
Context {T : Type} {TO : TOrd T} {V : Type} {NV : Num V}.
Variables (args : dict (param T V)) (t : T).
Notation av := (map (fun '(k, z) => (k, peval t z)) args).

Lemma arg_inv k a : arg k av = Ok a -> exists z, lookup k args = Some z /\ a = peval t z.
Proof.
  unfold arg. intro H. induction args as [|[k' z'] l IH]; simpl in *; [discriminate|].
  destruct (String.eqb k k'); [injection H as <-; eauto|auto].
Qed.

Lemma cir_sde_inv x v : cir_sde t x av = Ok v ->
  exists th k xi d s, lookup "theta" args = Some th /\ lookup "k" args = Some k /\ lookup "xi" args = Some xi /\
    v = RDict [("dt"%string, d); ("dw"%string, s)] /\
    forall ix, bget d ix = nmul (bget (peval t k) ix) (nsub (bget (peval t th) ix) (nmax (bget x ix) nzero)) /\
               bget s ix = nmul (bget (peval t xi) ix) (nsqrt (nmax (bget x ix) nzero)).
Proof.
  unfold cir_sde, plus_part, revert. intro H.
  destruct (arg "theta" av) as [th|] eqn:E1; cbn [rbind] in H; [|discriminate].
  destruct (arg "k" av) as [k|] eqn:E2; cbn [rbind] in H; [|discriminate].
  destruct (arg "xi" av) as [xi|] eqn:E3; cbn [rbind] in H; [|discriminate].
  destruct (aop nmax x _) as [xp|] eqn:E4; cbn [rbind] in H; [|discriminate].
  destruct (aop nsub th xp) as [dd|] eqn:E5; cbn [rbind] in H; [|discriminate].
  destruct (aop nmul k dd) as [d|] eqn:E6; cbn [rbind] in H; [|discriminate].
  destruct (aop nmul xi _) as [s|] eqn:E7; cbn [rbind] in H; [|discriminate].
  injection H as <-. apply arg_inv in E1, E2, E3.
  destruct E1 as (z1 & L1 & ->), E2 as (z2 & L2 & ->), E3 as (z3 & L3 & ->).
  exists z1, z2, z3, d, s. repeat (split; [assumption || reflexivity|]). intro ix.
  rewrite (aop_get _ _ _ _ ix E6), (aop_get _ _ _ _ ix E5), (aop_get _ _ _ _ ix E7), bget_amap, (aop_get _ _ _ _ ix E4).
  auto.
Qed.

Lemma heston_sde_inv xs v : heston_sde t xs av = Ok v ->
  exists x y mu sg th k xi d1 s1 d2 s2, xs = [x; y] /\
    lookup "mu" args = Some mu /\ lookup "sigma" args = Some sg /\
    lookup "theta" args = Some th /\ lookup "k" args = Some k /\ lookup "xi" args = Some xi /\
    v = RSeq [RDict [("dt"%string, d1); ("dw"%string, s1)]; RDict [("dt"%string, d2); ("dw"%string, s2)]] /\
    forall ix,
      let yp := nmax (bget y ix) nzero in
      bget d1 ix = nsub (bget (peval t mu) ix)
         (ndiv (nmul (nmul (bget (peval t sg) ix) (bget (peval t sg) ix)) yp) ntwo) /\
      bget s1 ix = nmul (bget (peval t sg) ix) (nsqrt yp) /\
      bget d2 ix = nmul (bget (peval t k) ix) (nsub (bget (peval t th) ix) yp) /\
      bget s2 ix = nmul (bget (peval t xi) ix) (nsqrt yp).
Proof.
  unfold heston_sde, plus_part, revert. intro H.
  destruct xs as [|x [|y [|]]]; try discriminate.
  destruct (arg "mu" av) as [mu|] eqn:E1; cbn [rbind] in H; [|discriminate].
  destruct (arg "sigma" av) as [sg|] eqn:E2; cbn [rbind] in H; [|discriminate].
  destruct (arg "theta" av) as [th|] eqn:E3; cbn [rbind] in H; [|discriminate].
  destruct (arg "k" av) as [k|] eqn:E4; cbn [rbind] in H; [|discriminate].
  destruct (arg "xi" av) as [xi|] eqn:E5; cbn [rbind] in H; [|discriminate].
  destruct (aop nmax y _) as [yp|] eqn:E6; cbn [rbind] in H; [|discriminate].
  destruct (aop nmul sg sg) as [ss|] eqn:E7; cbn [rbind] in H; [|discriminate].
  destruct (aop nmul ss yp) as [ssy|] eqn:E8; cbn [rbind] in H; [|discriminate].
  destruct (aop ndiv ssy two) as [h|] eqn:E9; cbn [rbind] in H; [|discriminate].
  destruct (aop nsub mu h) as [d1|] eqn:E10; cbn [rbind] in H; [|discriminate].
  destruct (aop nmul sg (amap _ _)) as [s1|] eqn:E11; cbn [rbind] in H; [|discriminate].
  destruct (aop nsub th yp) as [dd|] eqn:E12; cbn [rbind] in H; [|discriminate].
  destruct (aop nmul k dd) as [d2|] eqn:E13; cbn [rbind] in H; [|discriminate].
  destruct (aop nmul xi _) as [s2|] eqn:E14; cbn [rbind] in H; [|discriminate].
  injection H as <-. apply arg_inv in E1, E2, E3, E4, E5.
  destruct E1 as (z1 & L1 & ->), E2 as (z2 & L2 & ->), E3 as (z3 & L3 & ->), E4 as (z4 & L4 & ->), E5 as (z5 & L5 & ->).
  exists x, y, z1, z2, z3, z4, z5, d1, s1, d2, s2. repeat (split; [assumption || reflexivity|]). intros ix. cbv zeta.
  rewrite (aop_get _ _ _ _ ix E10), (aop_get _ _ _ _ ix E9), (aop_get _ _ _ _ ix E8), (aop_get _ _ _ _ ix E7).
  rewrite (aop_get _ _ _ _ ix E11), (aop_get _ _ _ _ ix E13), (aop_get _ _ _ _ ix E12), (aop_get _ _ _ _ ix E14).
  rewrite !bget_amap, !(aop_get _ _ _ _ ix E6). auto.
Qed.

(** entries of the initial working array of the Heston processes *)
Lemma heston_init_inv addaxis vshape paths x0 y0 X : packable addaxis vshape ->
  heston_init (T := T) (V := V) addaxis vshape paths x0 y0 t = Ok X ->
  forall ix, inb (vshape ++ [paths]) ix ->
    X (comp addaxis vshape 0 ix) = nlog (bget x0 ix) /\ X (comp addaxis vshape 1 ix) = bget y0 ix.
Proof.
  intros PK H ix HI. pose proof (vshape_split addaxis vshape paths PK) as VS. unfold heston_init in H.
  destruct (assign _ (amap nlog x0)) as [x|] eqn:E1; cbn [rbind] in H; [|discriminate].
  destruct (assign _ y0) as [y|] eqn:E2; cbn [rbind] in H; [|discriminate].
  injection H as <-. apply assign_ok in E1, E2. destruct E1 as [-> _], E2 as [-> _].
  apply inb_snoc in HI. destruct HI as (a & b & -> & HA & HB). unfold comp. rewrite removelast_last, last_last.
  destruct addaxis.
  - rewrite !dim2_snoc, !pop2_snoc, bget_amap. auto.
  - destruct (VS eq_refl) as (v & d & ->). rewrite last_last.
    apply inb_snoc in HA. destruct HA as (c & j & -> & HC & HJ). rewrite removelast_last, last_last.
    rewrite !dim2_snoc, !set2_snoc. replace (0 * d + j) with j by lia. replace (1 * d + j) with (d + j) by lia.
    destruct (Nat.ltb_spec j d); [|lia]. destruct (Nat.ltb_spec (d + j) d); [lia|].
    replace (d + j - d) with j by lia. rewrite (app2 c j b), bget_amap. auto.
Qed.
End Inv.

(** *** Steps over the real numbers *)
Section R.
Context {Wd I : Type}.
Open Scope R_scope.
Variables (dw : Wd -> R -> R -> res (Wd * arr R)) (vshape : list nat) (paths : nat) (gi : bool)
  (args : dict (param R R)).
Let w := (vshape ++ [paths])%list.

Lemma cir_next_step x0 wd t t' x wd' x' :
  next_step Rminus (cir_process (I := I) dw gi vshape paths x0 args) wd t t' x wd' x' ->
  cir_step args dw w wd t t' x wd' x'.
Proof.
  unfold next_step. set (ig := cir_process dw gi vshape paths x0 args). intro H.
  assert (H0 := H). unfold euler_next in H0. cbn [ig cir_process mk_sde ig_A ig_w] in H0. unfold sde_A in H0.
  destruct (cir_sde t _ _) as [v|] eqn:ES; cbn [rbind] in H0; [|discriminate]. clear H0.
  destruct (cir_sde_inv _ _ _ _ ES) as (th & k & xi & d & s & L1 & L2 & L3 & -> & HC).
  destruct (dw_next_ok Rminus ig dw d s wd t t' x wd' x' eq_refl eq_refl) as (z & EZ & HN); auto.
  { cbn [ig cir_process mk_sde ig_A ig_w]. unfold sde_A. rewrite ES. reflexivity. }
  exists (peval t th), (peval t k), (peval t xi), z. unfold par.
  split; [eauto|]. split; [eauto|]. split; [eauto|]. split; [exact EZ|]. intros ix HI.
  rewrite HN by exact HI. destruct (HC ix) as [-> ->]. fold w. rewrite (bget_self (mkArr w x)) by exact HI.
  cbn [nadd nmul nsub nmax nsqrt nzero Num_R dat]. ring.
Qed.

Variable set_order : list string -> list string.
Hypothesis PERM : forall l, Permutation (set_order l) l.
Let addaxis := force_addaxis false vshape.

Lemma heston_next_step (ig : integ R R Wd I) wd t t' x wd' x' :
  ig_ids ig = dw_ids -> ig_src ig = dw_src dw -> ig_w ig = (sdes_wshape 2 addaxis vshape ++ [paths])%list ->
  ig_A ig = sdes_A 2 addaxis vshape paths set_order dw_ids args heston_sde ->
  next_step Rminus ig wd t t' x wd' x' ->
  heston_step args dw w (comp addaxis vshape 0) (comp addaxis vshape 1) wd t t' x wd' x'.
Proof.
  intros EI ESr EW EA H. unfold next_step in H.
  assert (PK : packable addaxis vshape) by apply packable_force.
  assert (ND : NoDup (ig_ids ig)). { rewrite EI. repeat constructor; simpl; intuition discriminate. }
  destruct (system_value 2 addaxis vshape paths set_order args heston_sde ig Rminus PK PERM EW
     ltac:(rewrite EI; exact EA) ND _ _ _ _ _ _ H)
    as (A & dz & xs & As & HD & [LX HXS] & ES & LA & FA & KA & HC & VAL).
  destruct (heston_sde_inv _ _ _ _ ES) as (xa & ya & mu & sg & th & k & xi & d1 & s1 & d2 & s2 & -> & L1 & L2 & L3 & L4 & L5 & EV & HV).
  destruct As as [|A0 [|A1 [|]]]; try discriminate. simpl in EV. injection EV as -> ->.
  unfold dZ in HD. rewrite EI in HD. change (ssort dw_ids) with dw_ids in HD. unfold dw_ids in HD.
  cbn [eval_sources] in HD. rewrite ESr in HD.
  change (dw_src dw "dt"%string wd t (t' - t)) with (Ok (wd, ascalar (t' - t)) : res (Wd * arr R)) in HD. cbn [rbind] in HD.
  change (dw_src dw "dw"%string wd t (t' - t)) with (dw wd t (t' - t)) in HD.
  destruct (dw wd t (t' - t)) as [[wd1 z]|] eqn:EZ; cbn [rbind] in HD; [|discriminate]. injection HD as -> <-.
  exists (peval t mu), (peval t sg), (peval t th), (peval t k), (peval t xi), z. unfold par.
  repeat (split; [eauto; fail|]). intros ix HI. cbv zeta. set (y := Rmax (x (comp addaxis vshape 1 ix)) 0).
  destruct (HXS 1%nat ya eq_refl) as [SY DY].
  assert (EY : bget ya ix = x (comp addaxis vshape 1 ix)). { rewrite bget_self by (rewrite SY; exact HI). apply DY; auto. }
  assert (V0 := VAL 0%nat _ eq_refl ix HI). assert (V1 := VAL 1%nat _ eq_refl ix HI).
  specialize (HV ix). cbv zeta in HV. rewrite EY in HV. destruct HV as (H1 & H2 & H3 & H4).
  cbn [map Rlsum fold_right coef lookup String.eqb Ascii.eqb Bool.eqb] in V0, V1.
  unfold coef in V0, V1. cbn [lookup String.eqb Ascii.eqb Bool.eqb] in V0, V1.
  rewrite H1, H2 in V0. rewrite H3, H4 in V1. cbn [nadd nmul nsub nmax ndiv nsqrt nzero ntwo Num_R] in V0, V1.
  fold y in V0, V1. rewrite bget_scalar in V0, V1.
  split; [rewrite V0|rewrite V1]; simpl; field.
Qed.
End R.

(** *** No invalid values *)
Section N.
Context {Wd I : Type}.
#[local] Existing Instance Num_nan | 0.
Notation V := (option R).
Variables (dw : Wd -> R -> V -> res (Wd * arr V)) (vshape : list nat) (paths : nat) (gi : bool)
  (args : dict (param R V)).

Lemma nan2_ok f x y : x <> None -> y <> None -> nan2 f anyR x y <> None.
Proof. destruct x, y; intros; simpl; congruence. Qed.
Lemma nan_sqrt_ok x : x <> None -> nsqrt (nmax x nzero) <> None.
Proof.
  destruct x as [x|]; [|congruence]. intros _. simpl. destruct (Rlt_dec (Rmax x 0) 0) as [H|H]; [|congruence].
  pose proof (Rmax_r x 0). lra.
Qed.
Lemma nan_half_ok x : x <> None -> ndiv x ntwo <> None.
Proof. destruct x as [x|]; [|congruence]. intros _. simpl. destruct (Req_EM_T 2 0); [lra|congruence]. Qed.

Lemma fold_nan l : forall a, a <> None -> Forall (fun v => v <> None) l -> fold_left nadd l a <> None.
Proof.
  induction l as [|v l IH]; intros a HA HL; simpl; auto. inversion HL; subst. apply IH; auto.
  apply nan2_ok; auto.
Qed.

Notation valid_args := (valid_args args).
Notation valid_dw := (valid_dw dw).

Lemma cir_no_nan x0 i0 pace_fn fuel wd (inf : I) timeline p0 t0 wd' inf' xx :
  let w := vshape ++ [paths] in
  valid_args w ["theta"; "k"; "xi"]%string -> valid_dw w -> valid_arr w x0 ->
  valid_timeline timeline -> start_index (length timeline) i0 p0 -> nth_error timeline p0 = Some t0 ->
  length timeline + length (pace_fn timeline) <= fuel ->
  sde_call nan_sub (cir_process (I := I) dw gi vshape paths x0 args) i0 pace_fn fuel (wd, inf)
           [length timeline] timeline = Ok ((wd', inf'), xx) ->
  length xx = length timeline /\
  forall i y, nth_error xx i = Some y -> exists b, y = Some b /\ forall ix, inb w ix -> b ix <> None.
Proof.
  intros w VA VD VX V0 SI N0 HF H.
  set (ig := cir_process dw gi vshape paths x0 args) in *.
  apply (sde_call_run _ _ _ _ _ _ _ _ p0 t0) in H; auto.
  assert (LX : length xx = length timeline).
  { destruct H as (? & ? & ? & ? & ? & _ & _ & _ & _ & _ & _ & L & _). auto. }
  split; auto.
  destruct (run_inv ig (next_step nan_sub ig) (fun _ _ x => forall ix, inb w ix -> x ix <> None) (fun _ => True)
    timeline (pace_fn timeline) i0 p0 t0 wd wd' xx) as [OUT _]; auto.
  - intros u t x _ _ EI ix HI. cbn [ig cir_process mk_sde ig_init] in EI. unfold sde_init in EI.
    apply assign_ok in EI. destruct EI as [-> _]. unfold logi. cbn [ig cir_process mk_sde ig_log]. apply VX; auto.
  - intros u t x t' u' x' HP ST ix HI. unfold next_step in ST.
    assert (H0 := ST). unfold euler_next in H0. cbn [ig cir_process mk_sde ig_A ig_w] in H0. unfold sde_A in H0.
    destruct (cir_sde t _ _) as [v|] eqn:ES; cbn [rbind] in H0; [|discriminate]. clear H0.
    destruct (cir_sde_inv _ _ _ _ ES) as (th & k & xi & d & s & L1 & L2 & L3 & -> & HC).
    destruct (dw_next_ok nan_sub ig dw d s u t t' x u' x' eq_refl eq_refl) as (z & EZ & HN); auto.
    { cbn [ig cir_process mk_sde ig_A ig_w]. unfold sde_A. rewrite ES. reflexivity. }
    rewrite HN by exact HI. destruct (HC ix) as [-> ->].
    fold w. rewrite (bget_self (mkArr w x)) by exact HI. cbn [dat].
    assert (X := HP ix HI).
    assert (A1 : bget (peval t th) ix <> None) by (apply (VA "theta"%string); simpl; auto).
    assert (A2 : bget (peval t k) ix <> None) by (apply (VA "k"%string); simpl; auto).
    assert (A3 : bget (peval t xi) ix <> None) by (apply (VA "xi"%string); simpl; auto).
    assert (A4 : bget z ix <> None) by (apply (VD _ _ _ _ _ EZ); auto).
    assert (A5 := nan_sqrt_ok _ X).
    apply nan2_ok; auto. apply nan2_ok; [|apply nan2_ok; auto; apply nan2_ok; auto].
    apply nan2_ok; [discriminate|]. apply nan2_ok; [|discriminate]. apply nan2_ok; auto. apply nan2_ok; auto.
    apply nan2_ok; auto. discriminate.
  - intros i y Ni. assert (HL : i < length timeline) by (rewrite <- LX; apply nth_error_Some; congruence).
    destruct (nth_error timeline i) as [ti|] eqn:Et; [|apply nth_error_None in Et; lia].
    destruct (OUT i ti Et) as (t & x & u & y' & _ & HP & EL & EX). rewrite EX in Ni. injection Ni as <-.
    eexists. split; [reflexivity|]. intros ix HI. unfold fin. cbn [ig cir_process mk_sde ig_log ig_let] in *.
    unfold sde_let in EL. apply assign_ok in EL. destruct EL as [-> _]. rewrite bget_self by exact HI. apply HP; auto.
Qed.

(** both Heston processes: the working array is valid at each step, hence the outputs *)
Variable set_order : list string -> list string.
Lemma heston_next_valid (ig : integ R V Wd I) wd t t' X wd' X' :
  let addaxis := force_addaxis false vshape in
  let vp := vshape ++ [paths] in
  let w := sdes_wshape 2 addaxis vshape ++ [paths] in
  ig_ids ig = dw_ids -> ig_src ig = dw_src dw -> ig_w ig = w ->
  ig_A ig = sdes_A 2 addaxis vshape paths set_order dw_ids args heston_sde ->
  valid_args vp ["mu"; "sigma"; "theta"; "k"; "xi"]%string -> valid_dw w ->
  (forall ix, inb w ix -> X ix <> None) ->
  euler_next nan_sub ig wd t t' X = Ok (wd', X') -> forall ix, inb w ix -> X' ix <> None.
Proof.
  intros addaxis vp w EI ESr EW EA VA VD HX H ix HI.
  assert (PK : packable addaxis vshape) by apply packable_force.
  destruct (euler_next_value _ _ _ _ _ _ _ _ H) as (A & dz & HA & DR & HS).
  rewrite EA, EW in HA. fold w in HA.
  destruct (sdes_A_inv 2 addaxis vshape paths set_order dw_ids args heston_sde PK t (mkArr w X) _ eq_refl HA)
    as (xs & As & [LX HXS] & EU & ES & LA & FA & KA & HP).
  destruct (heston_sde_inv _ _ _ _ ES) as (xa & ya & mu & sg & th & k & xi & d1 & s1 & d2 & s2 & -> & L1 & L2 & L3 & L4 & L5 & EV & HV).
  destruct As as [|A0 [|A1 [|]]]; try discriminate. simpl in EV. injection EV as -> ->.
  (* values of the sources *)
  assert (DZ : forall id z, In (id, z) dz -> bget z ix <> None).
  { unfold dZ in DR. rewrite EI in DR. change (ssort dw_ids) with dw_ids in DR. unfold dw_ids in DR.
    cbn [eval_sources] in DR. rewrite ESr in DR.
    change (dw_src dw "dt"%string wd t (nan_sub t' t)) with (Ok (wd, ascalar (nan_sub t' t)) : res (Wd * arr V)) in DR. cbn [rbind] in DR.
    change (dw_src dw "dw"%string wd t (nan_sub t' t)) with (dw wd t (nan_sub t' t)) in DR.
    destruct (dw wd t (nan_sub t' t)) as [[wd1 z]|] eqn:EZ; cbn [rbind] in DR; [|discriminate]. injection DR as -> <-.
    intros id z' [HH|[HH|[]]]; injection HH as <- <-; [rewrite bget_scalar; discriminate|].
    apply (VD _ _ _ _ _ EZ); auto. }
  (* coefficients *)
  destruct (comp_cover addaxis vshape paths PK 2 ix HI) as (kk & ix' & HK & HI' & EIX).
  destruct (HXS 1 ya eq_refl) as [SY DY].
  assert (EY : bget ya ix' <> None).
  { rewrite bget_self by (rewrite SY; exact HI'). rewrite DY by auto. apply HX. apply comp_inb; auto. }
  assert (COEF : forall id c, In (id, c) A -> bget c ix <> None).
  { intros id c HIn. destruct (HP id c HIn) as [SP HPk].
    rewrite bget_self by (rewrite SP; exact HI). rewrite EIX.
    assert (B1 : bget (peval t mu) ix' <> None) by (apply (VA "mu"%string); simpl; auto).
    assert (B2 : bget (peval t sg) ix' <> None) by (apply (VA "sigma"%string); simpl; auto).
    assert (B3 : bget (peval t th) ix' <> None) by (apply (VA "theta"%string); simpl; auto).
    assert (B4 : bget (peval t k) ix' <> None) by (apply (VA "k"%string); simpl; auto).
    assert (B5 : bget (peval t xi) ix' <> None) by (apply (VA "xi"%string); simpl; auto 10).
    assert (B6 := nan_sqrt_ok _ EY).
    assert (B7 : nmax (bget ya ix') nzero <> None) by (apply nan2_ok; [auto|discriminate]).
    specialize (HV ix'). cbv zeta in HV. destruct HV as (H1 & H2 & H3 & H4).
    assert (R1 : bget d1 ix' <> None) by (rewrite H1; apply nan2_ok; auto; apply nan_half_ok; apply nan2_ok; auto; apply nan2_ok; auto).
    assert (R2 : bget s1 ix' <> None) by (rewrite H2; apply nan2_ok; auto).
    assert (R3 : bget d2 ix' <> None) by (rewrite H3; apply nan2_ok; auto; apply nan2_ok; auto).
    assert (R4 : bget s2 ix' <> None) by (rewrite H4; apply nan2_ok; auto).
    destruct kk as [|[|]]; [| |lia].
    - destruct (HPk 0 _ eq_refl) as [_ ->]; auto. unfold coef_or_zero. cbn [lookup].
      destruct (String.eqb id "dt"); auto. destruct (String.eqb id "dw"); auto. discriminate.
    - destruct (HPk 1 _ eq_refl) as [_ ->]; auto. unfold coef_or_zero. cbn [lookup].
      destruct (String.eqb id "dt"); auto. destruct (String.eqb id "dw"); auto. discriminate. }
  rewrite EW in HS. destruct (HS ix HI) as (d & (terms & FT & ->) & ->).
  apply nan2_ok; [apply HX; auto|]. apply fold_nan; [discriminate|].
  clear -FT COEF DZ. revert COEF. induction FT as [|[id c] p A terms (z & HZ & ->) F IH]; intros COEF; constructor.
  - apply nan2_ok; [apply (COEF id); left; auto|eapply DZ; eauto].
  - apply IH. intros id' c' HH. apply (COEF id'). right; auto.
Qed.
End N.
