(** Lemmas on the accuracy of the Euler scheme. *)
From Coq Require Import String List Arith Bool ZArith Reals Lra Lia Sorting.Sorted.
From Verif Require Import Base BaseOrd BaseNum BaseArr M_paths S_paths S_run L_ord L_paths8
  M_sde S_sde L_sde L_sde2 L_sde3 M_presets S_presets L_presets S_integrate P_source4 S_euler.
Import ListNotations.

(** *** The steps of a run link consecutive points of a grid *)
Section Link.
Context {T : Type} {TO : TOrd T} {TL : TOrdLaws T} {V : Type} {NV : Num V} {Wd I : Type}.
Variable ig : integ T V Wd I.
Variable step : Wd -> T -> T -> buf V -> Wd -> buf V -> Prop.
Variable Rel : T -> T -> Prop.

Lemma chain_link wd t x todo wd' l : chain step wd t x todo wd' l -> Sorted Rel (t :: todo) ->
  chain (fun u t t' x u' x' => step u t t' x u' x' /\ Rel t t') wd t x todo wd' l.
Proof using Type.
  intro C. induction C as [wd t x | wd t x t' x' wd1 todo wd2 l S C IH]; intro H.
  - constructor.
  - inversion H as [|? ? H1 H2]; subst. inversion H2; subst. econstructor; eauto.
Qed.

Lemma run_link timeline pc i0 p0 t0 wd wd' xx :
  (forall rv g, grid_spec rv timeline pc t0 g -> Sorted Rel g) ->
  run_of ig step timeline pc i0 p0 t0 wd wd' xx ->
  run_of ig (fun u t t' x u' x' => step u t t' x u' x' /\ Rel t t') timeline pc i0 p0 t0 wd wd' xx.
Proof using Type.
  intros HG (gb & gf & wd1 & yb & yf & GB & GF & PB & NB & PF & NF & LX & OF & OB).
  exists gb, gf, wd1, yb, yf. split; auto. split; auto.
  assert (PP : forall rv g tl w w' ys, grid_spec rv timeline pc t0 g -> pass_of ig step tl g w w' ys ->
    pass_of ig (fun u t t' x u' x' => step u t t' x u' x' /\ Rel t t') tl g w w' ys).
  { intros rv g tl w w' ys G (t & todo & x & l & -> & EI & C & F).
    exists t, todo, x, l. split; auto. split; auto. split; auto. apply chain_link; auto. eapply HG; eauto. }
  split. { intro E. eapply PP; eauto. } split; auto. split. { intro E. eapply PP; eauto. } auto.
Qed.
End Link.

Open Scope R_scope.

(** consecutive points, going away from [t0], at most [h] apart *)
Definition away (h t0 A B a b : R) : Prop :=
  A <= a <= B /\ A <= b <= B /\ Rabs (b - a) <= h /\ Rabs (b - t0) = Rabs (a - t0) + Rabs (b - a) /\ a <> b.

Lemma InT_R (t : R) l : InT t l <-> In t l.
Proof.
  unfold InT. split.
  - intros (s & Hs & E). apply teqb_R_true in E. subst. auto.
  - intro H. exists t. split; auto. apply teqb_R_true; auto.
Qed.

Lemma tleb_R (a b : R) : tleb a b = true <-> a <= b.
Proof.
  unfold tleb. rewrite orb_true_iff, tltb_R_true, teqb_R_true. lra.
Qed.

Lemma before_R rv (a b : R) : before rv a b <-> if rv then b < a else a < b.
Proof. unfold before. destruct rv; apply tltb_R_true. Qed.

Lemma sorted_mid {A} (Rel Q : A -> A -> Prop) (g : list A) :
  StronglySorted Rel g ->
  (forall pre a b post, g = pre ++ a :: b :: post -> Rel a b ->
     (forall p, In p g -> p = a \/ p = b \/ Rel p a \/ Rel b p) -> Q a b) ->
  Sorted Q g.
Proof.
  intros SS H.
  assert (G : forall suf pre, g = pre ++ suf -> Sorted Q suf).
  { induction suf as [|a suf IH]; intros pre E; constructor.
    - apply (IH (pre ++ [a])). rewrite <- app_assoc. auto.
    - destruct suf as [|b post]; constructor. 
      assert (Fpre : forall pre l, StronglySorted Rel (pre ++ l) -> forall p q, In p pre -> In q l -> Rel p q).
      { clear. induction pre as [|x pre IH]; intros l S p q Hp Hq; simpl in *; [easy|].
        apply StronglySorted_inv in S. destruct S as [S F]. destruct Hp as [->|Hp]; eauto.
        rewrite Forall_forall in F. apply F. apply in_or_app. auto. }
      assert (Sub : StronglySorted Rel (a :: b :: post)).
      { clear - SS E. subst g. induction pre; simpl in *; auto. apply StronglySorted_inv in SS. tauto. }
      apply StronglySorted_inv in Sub. destruct Sub as [S1 F1].
      apply StronglySorted_inv in S1. destruct S1 as [S2 F2]. rewrite Forall_forall in *.
      apply (H pre a b post E). { apply F1. left; auto. }
      intros p Hp. rewrite E in Hp. apply in_app_or in Hp. destruct Hp as [Hp|[Hp|[Hp|Hp]]]; auto.
      right. right. left. rewrite E in SS. eapply Fpre; eauto. left; auto. }
  apply (G g []). auto.
Qed.

Lemma grid_away h A B rv timeline pc t0 g :
  fine h timeline pc -> In t0 timeline -> (forall t, In t timeline -> A <= t <= B) ->
  grid_spec rv timeline pc t0 g -> Sorted (away h t0 A B) g.
Proof.
  intros FI I0 RG [SS HG]. apply (sorted_mid (before rv)); auto.
  intros pre a b post Eg Hab MID.
  assert (GI : forall t, In t g -> (exists u v, In u timeline /\ In v timeline /\ u <= t <= v) /\ (t0 = t \/ before rv t0 t)).
  { intros t Ht. apply InT_R in Ht. apply HG in Ht. destruct Ht as [H1 H2]. split.
    - destruct H1 as [H1|[_ (u & v & Hu & Hv & L1 & L2)]].
      + apply InT_R in H1. exists t, t. repeat split; auto; lra.
      + apply InT_R in Hu. apply InT_R in Hv. apply tleb_R in L1. apply tleb_R in L2. exists u, v. auto.
    - destruct H2 as [H2|H2]; auto. left. apply teqb_R_true in H2. auto. }
  assert (Ia : In a g) by (subst g; apply in_or_app; right; left; auto).
  assert (Ib : In b g) by (subst g; apply in_or_app; right; right; left; auto).
  destruct (GI a Ia) as [(ua & va & Hua & Hva & La) Sa].
  destruct (GI b Ib) as [(ub & vb & Hub & Hvb & Lb) Sb].
  assert (RA := RG _ Hua). assert (RB := RG _ Hva). assert (RC := RG _ Hub). assert (RD := RG _ Hvb).
  assert (MIDR : forall p, (In p timeline \/ In p pc) -> Rmin a b < p < Rmax a b -> False).
  { intros p Hp Lp.
    assert (Ip : In p g).
    { apply InT_R. apply HG. split.
      - destruct Hp as [Hp|Hp]; [left; apply InT_R; auto|].
        right. split; [apply InT_R; auto|].
        assert (U : exists u, In u timeline /\ u <= p).
        { unfold Rmin in Lp. destruct (Rle_dec a b); [exists ua|exists ub]; split; auto; lra. }
        assert (U' : exists u, In u timeline /\ p <= u).
        { unfold Rmax in Lp. destruct (Rle_dec a b); [exists vb|exists va]; split; auto; lra. }
        destruct U as (u & ? & ?), U' as (v & ? & ?). exists u, v.
        rewrite !InT_R, !tleb_R. auto.
      - right. apply before_R. rewrite before_R in Hab, Sa, Sb.
        unfold Rmin, Rmax in Lp. destruct rv, (Rle_dec a b); try lra. }
    destruct (MID p Ip) as [->|[->|[M|M]]]; rewrite ?before_R in *;
      unfold Rmin, Rmax in Lp; destruct rv, (Rle_dec a b); lra. }
  assert (GAP : Rabs (b - a) <= h).
  { destruct (Rle_or_lt (Rabs (b - a)) h) as [|L]; auto. exfalso.
    rewrite before_R in Hab. destruct rv.
    - rewrite Rabs_left in L by lra.
      destruct (FI ub va b a) as (p & Hp & Lp); auto; try lra.
      apply (MIDR p Hp). rewrite Rmin_right, Rmax_left by lra. auto.
    - rewrite Rabs_right in L by lra.
      destruct (FI ua vb a b) as (p & Hp & Lp); auto; try lra.
      apply (MIDR p Hp). rewrite Rmin_left, Rmax_right by lra. auto. }
  unfold away. split; [lra|]. split; [lra|]. split; auto. rewrite before_R in Hab, Sa, Sb.
  destruct rv.
  - rewrite (Rabs_left (b - a)) by lra. rewrite !Rabs_left1 by (destruct Sa; lra). lra.
  - rewrite (Rabs_right (b - a)) by lra. rewrite !Rabs_right by (destruct Sa; lra). lra.
Qed.

(** *** Growth of the error *)
Lemma one_plus_exp x : 1 + x <= exp x.
Proof.
  destruct (Req_dec x 0) as [->|N]; [rewrite exp_0; lra|]. apply Rlt_le, exp_ineq1. auto.
Qed.

Lemma error_step L om s d e e' : 0 < L -> 0 <= om -> 0 <= d ->
  e <= om / L * (exp (L * s) - 1) -> e' <= e + d * (L * e + om) -> 
  e' <= om / L * (exp (L * (s + d)) - 1).
Proof.
  intros HL HO HD HE HE'.
  replace (L * (s + d)) with (L * s + L * d) by ring. rewrite exp_plus.
  assert (E1 := one_plus_exp (L * d)). assert (E0 := exp_pos (L * s)).
  assert (HC : 0 <= om / L) by (apply Rmult_le_pos; [lra|left; apply Rinv_0_lt_compat; auto]).
  assert (EO : om = om / L * L) by (field; lra).
  set (c := om / L) in *. rewrite EO in HE'.
  assert (A1 : e' <= c * (exp (L * s) - 1) * (1 + L * d) + d * (c * L)).
  { eapply Rle_trans; [exact HE'|]. replace (e + d * (L * e + c * L)) with (e * (1 + L * d) + d * (c * L)) by ring.
    apply Rplus_le_compat_r. apply Rmult_le_compat_r; auto. assert (0 <= L * d) by (apply Rmult_le_pos; lra). lra. }
  eapply Rle_trans; [exact A1|].
  replace (c * (exp (L * s) - 1) * (1 + L * d) + d * (c * L)) with (c * (exp (L * s) * (1 + L * d) - 1)) by ring.
  apply Rmult_le_compat_l; auto. apply Rplus_le_compat_r. apply Rmult_le_compat_l; lra.
Qed.

(** the error of one step: the increment of a function against its derivative at the start *)
Lemma mvt_step (g g' : R -> R) A B om h a b :
  (forall t, A <= t <= B -> derivable_pt_lim g t (g' t)) ->
  (forall s t, A <= s <= B -> A <= t <= B -> Rabs (t - s) <= h -> Rabs (g' t - g' s) <= om) ->
  A <= a <= B -> A <= b <= B -> Rabs (b - a) <= h -> 
  Rabs (g b - g a - g' a * (b - a)) <= Rabs (b - a) * om.
Proof.
  intros D OM RA RB HH. destruct (Req_dec a b) as [->|N].
  { replace (g b - g b - g' b * (b - b)) with 0 by ring. replace (b - b) with 0 by ring. rewrite Rabs_R0. lra. }
  assert (EX : exists c, Rmin a b < c < Rmax a b /\ g b - g a = g' c * (b - a)).
  { destruct (Rtotal_order a b) as [Lt|[->|Gt]]; [|lra|].
    - rewrite Rmin_left, Rmax_right by lra.
      destruct (MVT_cor2 g g' a b Lt) as (c & E & C); [intros; apply D; lra|]. exists c. split; auto.
    - rewrite Rmin_right, Rmax_left by lra.
      destruct (MVT_cor2 g g' b a Gt) as (c & E & C); [intros; apply D; lra|]. exists c. split; auto. lra. }
  destruct EX as (c & C & ->).
  replace (g' c * (b - a) - g' a * (b - a)) with ((b - a) * (g' c - g' a)) by ring.
  rewrite Rabs_mult. apply Rmult_le_compat_l; [apply Rabs_pos|].
  assert (RC : A <= c <= B). { unfold Rmin, Rmax in C. destruct (Rle_dec a b); lra. }
  apply OM; auto. 
  apply Rle_trans with (Rabs (b - a)); auto.
  unfold Rmin, Rmax in C. destruct (Rle_dec a b).
  - rewrite !Rabs_right by lra. lra.
  - rewrite !Rabs_left by lra. lra.
Qed.

(** *** Additive noise: the distance from the solution, path by path *)
Section Pathwise.
Context {Wd I : Type}.
Variables (dw : Wd -> R -> R -> res (Wd * arr R)) (vshape : list nat) (paths : nat)
  (Adm : Wd -> Prop) (W : R -> list nat -> R).
Let w := (vshape ++ [paths])%list.
Hypothesis HW : additive_source w dw Adm W.
Variables (sde : R -> arr R -> dict (arr R) -> res (sdeval R)) (log gi : bool) (x0 b : arr R) (args : dict (param R R))
  (f : R -> buf R -> buf R) (L om h A B : R) (X : R -> buf R).
Hypothesis HX : can (shp x0) w = true.
Hypothesis HS : drift_noise w sde args f b.
Hypothesis HL : 0 < L.
Hypothesis LIP : lipschitz w L f.
Hypothesis SOL : solves w A B f b W X.
Hypothesis HO : 0 <= om.
Hypothesis OM : forall s t, A <= s <= B -> A <= t <= B -> Rabs (t - s) <= h -> within w om (f t (X t)) (f s (X s)).
Let ig : integ R R Wd I := mk_sde dw_ids (dw_src dw) log sde gi vshape paths x0 args.

Lemma pathwise i0 pace_fn fuel wd inf (timeline : list R) p0 t0 :
  Adm wd ->
  valid_timeline timeline -> start_index (length timeline) i0 p0 -> nth_error timeline p0 = Some t0 ->
  (length timeline + length (pace_fn timeline) <= fuel)%nat ->
  (forall t, In t timeline -> A <= t <= B) -> fine h timeline (pace_fn timeline) ->
  (forall ix, inb w ix -> X t0 ix = if log then ln (bget x0 ix) else bget x0 ix) ->
  exists s' xx,
    sde_call Rminus ig i0 pace_fn fuel (wd, inf) [length timeline] timeline = Ok (s', xx) /\
    length xx = length timeline /\
    forall i ti, nth_error timeline i = Some ti ->
      exists y, nth_error xx i = Some (Some y) /\
        within w (om / L * (exp (L * Rabs (ti - t0)) - 1)) (fun ix => if log then ln (y ix) else y ix) (X ti) /\
        (log = true -> forall ix, inb w ix -> 0 < y ix).
Proof.
  intros AD V0 SI N0 HF RNG FI X0. destruct HS as [CB HA]. apply can_broadcasts in CB.
  assert (TI : total_integ ig Adm).
  { apply dw_total; auto.
    - intros t x. destruct (HA t x) as (a & E & C & _). apply can_broadcasts in C. exists a, b. auto.
    - apply (additive_total dw vshape paths Adm W HW). }
  destruct (sde_call_total Rminus ig Adm TI i0 pace_fn fuel (wd, inf) timeline p0 AD V0 SI HF) as ([wd' inf'] & xx & E).
  exists (wd', inf'), xx. split; auto.
  assert (RN := sde_call_run Rminus ig i0 pace_fn fuel wd inf timeline p0 t0 wd' inf' xx V0 SI N0 HF E).
  split. { destruct RN as (? & ? & ? & ? & ? & _ & _ & _ & _ & _ & _ & LX & _). auto. }
  assert (I0 : In t0 timeline) by (eapply nth_error_In; eauto).
  apply (run_link ig _ (away h t0 A B)) in RN; [|intros rv g; eapply grid_away; eauto].
  set (bd := fun t => om / L * (exp (L * Rabs (t - t0)) - 1)).
  set (P := fun (u : Wd) (t : R) (x : buf R) => Adm u /\ within w (bd t) x (X t)).
  destruct (run_inv ig (fun u t t' x u' x' => next_step Rminus ig u t t' x u' x' /\ away h t0 A B t t')
              P Adm timeline (pace_fn timeline) i0 p0 t0 wd wd' xx) as [OUT _]; auto.
  - intros u t x Hu Et EI. apply teqb_R_true in Et. subst t. split; auto. intros ix HI.
    simpl in EI. unfold sde_init in EI. fold w in EI. rewrite assign_can in EI by auto. injection EI as <-.
    unfold logi, bd. cbn [ig_log ig mk_sde]. rewrite X0 by auto.
    replace (L * Rabs (t0 - t0)) with 0 by (rewrite Rminus_diag_eq, Rabs_R0 by auto; ring). rewrite exp_0.
    destruct log; simpl; rewrite Rminus_diag_eq, Rabs_R0 by auto; lra.
  - intros u t x t' u' x' [Hu HP] [ST (R1 & R2 & GAP & EQ & NE)]. unfold next_step in ST.
    destruct (HA t x) as (a & EA & CA & Ha).
    destruct (dw_next_ok Rminus ig dw a b u t t' x u' x' eq_refl eq_refl) as (z & EZ & HN); auto.
    { cbn [ig_A ig mk_sde]. unfold sde_A. cbn [ig_w ig mk_sde]. fold w. rewrite EA. cbn [rbind]. apply dw_check. }
    destruct (HW u t (t' - t) Hu) as (u1 & z1 & EZ1 & Hu1 & _ & HZ). rewrite EZ1 in EZ. injection EZ as <- <-.
    split; auto. intros ix HI. rewrite HN by exact HI. rewrite HZ by exact HI. rewrite Ha by auto.
    replace (t + (t' - t)) with t' by ring. unfold bd. rewrite EQ.
    apply error_step with (e := bd t); auto; [apply Rabs_pos|unfold bd; apply Rle_refl|].
    assert (M := mvt_step (fun s => X s ix - bget b ix * W s ix) (fun s => f s (X s) ix) A B om h t t' 
                   ltac:(intros; apply SOL; auto) ltac:(intros; apply OM; auto) R1 R2 GAP).
    cbv beta in M. 
    assert (LI := LIP t x (X t) (bd t) HP ix HI). assert (HPx := HP ix HI).
    cbn [nadd nmul nzero Num_R].
    match goal with |- Rabs ?u <= _ => replace u with
      ((x ix - X t ix) + ((t' - t) * (f t x ix - f t (X t) ix) +
        - (X t' ix - bget b ix * W t' ix - (X t ix - bget b ix * W t ix) - f t (X t) ix * (t' - t)))) by ring end.
    eapply Rle_trans; [apply Rabs_triang|]. apply Rplus_le_compat; auto.
    eapply Rle_trans; [apply Rabs_triang|]. rewrite Rabs_Ropp, Rabs_mult, Rmult_plus_distr_l.
    apply Rplus_le_compat; auto. apply Rmult_le_compat_l; auto. apply Rabs_pos.
  - intros u t x [Hu _]; auto.
  - intros i ti Ni. destruct (OUT i ti Ni) as (t & x & u & y & Et & [_ HP] & EL & EX).
    apply teqb_R_true in Et. subst t. exists (fin ig y). split; auto.
    simpl in EL. unfold sde_let in EL. rewrite assign_can in EL by apply can_refl. injection EL as <-.
    unfold fin. cbn [ig_log ig mk_sde]. fold w. split.
    + intros ix HI. specialize (HP ix HI). unfold bd in HP.
      assert (EV : bget (mkArr w x) ix = x ix) by (rewrite bget_self by auto; reflexivity).
      destruct log; cbn [nexp Num_R]; rewrite EV; rewrite ?ln_exp; auto.
    + intros -> ix HI. apply exp_pos.
Qed.
End Pathwise.
