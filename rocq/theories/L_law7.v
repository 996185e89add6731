(** Lemmas on the sources of the jump diffusions, and on the law of values of processes with independent increments. *)
From Coq Require Import String List Arith Bool ZArith Reals Lra Lia Sorted.
From Coquelicot Require Import Coquelicot.
From Verif Require Import Base BaseOrd BaseNum BaseArr M_paths S_paths S_run L_ord L_paths8
  M_process M_source S_source M_sde S_sde L_sde L_sde2 L_sde3 M_presets S_presets L_presets M_integrate S_integrate P_source P_source4 S_true2 S_euler L_euler L_euler2
  BaseNd BaseIdx S_process L_nd P_source3 M_rv S_rv M_analytical S_analytical M_jumps S_law P_chf L_law L_law2 L_law3 L_law4 L_law5 L_law6.
Import ListNotations.
Local Open Scope R_scope.

(** *** one value *)
Lemma levy_chf {G} (E : (G -> R) -> R) w psi D x0 timeline X i ti t0 ix u :
  (forall f h, (forall g, f g = h g) -> E f = E h) ->
  levy_values E w psi D x0 timeline X -> inb w ix -> nth_error timeline i = Some ti -> nth_error timeline 0 = Some t0 ->
  D u -> D 0%C -> (forall jx, psi jx 0%C = 0%C) ->
  has_mean E (fun g => cexp (u * RtoC (X g i ix))%C) (cexp (u * RtoC (x0 ix) + RtoC (ti - t0) * psi ix u)%C).
Proof.
  intros EX [X0 H] HI Ni N0 Du D0 P0.
  assert (Li : (i < List.length timeline)%nat) by (apply nth_error_Some; congruence).
  assert (IN : In ix (ndindex w)) by (apply in_ndindex; exact HI).
  set (theta := fun jx j => if list_eq_dec Nat.eq_dec jx ix then (if (j <? i)%nat then u else 0%C) else 0%C).
  specialize (H theta (cexp (u * RtoC (x0 ix))%C) ltac:(intros jx j; unfold theta; destruct (list_eq_dec _ _ _); [destruct (_ <? _)%nat|]; auto)). cbv zeta in H.
  set (M := (List.length timeline - 1)%nat) in *.
  assert (ND : NoDup (ndindex w)) by apply NoDup_ndindex.
  assert (TS : forall (f : list nat -> C) l, NoDup l -> In ix l -> (forall jx, jx <> ix -> f jx = 0%C) -> csum f l = f ix).
  { intros f l NDl Il Hf. induction l as [|j l IH]; [easy|]. change (csum f (j :: l)) with (f j + csum f l)%C. inversion NDl; subst. destruct Il as [->|Il].
    - replace (csum f l) with (RtoC 0); [ring|]. symmetry. clear - H2 Hf. induction l as [|k l IH]; [reflexivity|]. change (csum f (k :: l)) with (f k + csum f l)%C. rewrite IH, Hf; [ring| |]; intro; apply H2; [left; auto|right; auto].
    - rewrite IH by auto. rewrite Hf by (intros ->; auto). ring. }
  assert (SM : forall g n m, (n <= i)%nat -> csum (fun j => theta ix j * RtoC (g (S j) - g j))%C (seq n m) = (u * RtoC (g (Nat.min (n + m) i) - g n))%C).
  { intros g n m. revert n. induction m as [|m IH]; intros n Hn.
    - cbn [seq]. rewrite Nat.add_0_r, Nat.min_l by auto. replace (g n - g n) with 0 by ring. unfold csum. cbn [map fold_right]. ring.
    - cbn [seq]. change (csum ?f (n :: ?l)) with (f n + csum f l)%C. unfold theta at 1. destruct (list_eq_dec _ ix ix) as [_|Q]; [|congruence].
      destruct (Nat.ltb_spec n i) as [Q|Q].
      + rewrite IH by lia. replace (S n + m)%nat with (n + S m)%nat by lia. rewrite !RtoC_minus. ring.
      + assert (n = i) by lia. subst n. rewrite Nat.min_r by lia. replace (g i - g i) with 0 by ring. clear IH.
        replace (csum (fun j => theta ix j * RtoC (g (S j) - g j))%C (seq (S i) m)) with (RtoC 0); [ring|]. symmetry.
        assert (Z : forall l, (forall j, In j l -> (i <= j)%nat) -> csum (fun j => theta ix j * RtoC (g (S j) - g j))%C l = RtoC 0).
        { intros l Hl. induction l as [|j l IH]; [reflexivity|]. change (csum ?f (j :: ?l)) with (f j + csum f l)%C. rewrite IH by (intros; apply Hl; right; auto). unfold theta. destruct (list_eq_dec _ ix ix); [|congruence].
          destruct (Nat.ltb_spec j i) as [Q'|Q']; [specialize (Hl j ltac:(left; auto)); lia|]. ring. }
        apply Z. intros j Hj. apply in_seq in Hj. lia. }
  match type of H with has_mean _ _ (_ * ?c)%C => assert (PV : c = cexp (RtoC (ti - t0) * psi ix u)%C) end.
  { transitivity (cexp (csum (fun jx => csum (fun j => RtoC (nth (S j) timeline 0 - nth j timeline 0) * psi jx (theta jx j))%C (seq 0 M)) (ndindex w))).
    { rewrite cexp_csum. apply cprod_ext. intros jx _. symmetry. apply cexp_csum. }
    f_equal. rewrite (TS _ _ ND IN).
    - transitivity (csum (fun j => (if (j <? i)%nat then psi ix u else RtoC 0) * RtoC (nth (S j) timeline 0 - nth j timeline 0))%C (seq 0 M)).
      { apply csum_ext. intros j _. unfold theta. destruct (list_eq_dec _ ix ix); [|congruence]. destruct (j <? i)%nat; rewrite ?P0; ring. }
      assert (Z : forall n m, (n <= i)%nat -> csum (fun j => (if (j <? i)%nat then psi ix u else RtoC 0) * RtoC (nth (S j) timeline 0 - nth j timeline 0))%C (seq n m) = (psi ix u * RtoC (nth (Nat.min (n + m) i) timeline 0 - nth n timeline 0))%C).
      { intros n m. revert n. induction m as [|m IH]; intros n Hn.
        - cbn [seq]. rewrite Nat.add_0_r, Nat.min_l by auto. replace (nth n timeline 0 - nth n timeline 0) with 0 by ring. unfold csum. cbn [map fold_right]. ring.
        - cbn [seq]. change (csum ?f (n :: ?l)) with (f n + csum f l)%C. cbv beta. destruct (Nat.ltb_spec n i) as [Q|Q].
          + rewrite IH by lia. replace (S n + m)%nat with (n + S m)%nat by lia. rewrite !RtoC_minus. ring.
          + assert (n = i) by lia. subst n. rewrite Nat.min_r by lia. replace (nth i timeline 0 - nth i timeline 0) with 0 by ring.
            match goal with |- (_ + ?c)%C = _ => replace c with (RtoC 0); [ring|] end. symmetry.
            assert (Z : forall l, (forall j, In j l -> (i <= j)%nat) -> csum (fun j => (if (j <? i)%nat then psi ix u else RtoC 0) * RtoC (nth (S j) timeline 0 - nth j timeline 0))%C l = RtoC 0).
            { intros l Hl. clear IH. induction l as [|j l IH]; [reflexivity|]. change (csum ?f (j :: ?l)) with (f j + csum f l)%C. rewrite IH by (intros; apply Hl; right; auto). cbv beta.
              destruct (Nat.ltb_spec j i) as [Q'|Q']; [specialize (Hl j ltac:(left; auto)); lia|]. ring. }
            apply Z. intros j Hj. apply in_seq in Hj. lia. }
      rewrite Z by lia. cbn [Nat.add]. rewrite Nat.min_r by (unfold M; lia). rewrite (nth_error_nth _ _ _ Ni), (nth_error_nth _ _ _ N0). ring.
    - intros jx Q. assert (Z : forall l, csum (fun j => RtoC (nth (S j) timeline 0 - nth j timeline 0) * psi jx (theta jx j))%C l = 0%C).
      { induction l as [|j l IH]; [reflexivity|]. change (csum ?f (j :: ?l)) with (f j + csum f l)%C. rewrite IH. unfold theta. destruct (list_eq_dec _ jx ix); [contradiction|]. rewrite P0. ring. }
      apply Z. }
  rewrite PV, <- cexp_add in H. destruct H as [H1 H2].
  split; [rewrite <- H1|rewrite <- H2]; apply EX; intro g; f_equal; rewrite <- cexp_add; f_equal; rewrite (TS _ _ ND IN).
  all: try (rewrite (SM (fun j => X g j ix) 0%nat M ltac:(lia)); cbn [Nat.add]; rewrite Nat.min_r by (unfold M; lia); rewrite X0 by auto; rewrite RtoC_minus; ring).
  all: intros jx Q; assert (Z : forall l, csum (fun j => theta jx j * RtoC (X g (S j) jx - X g j jx))%C l = 0%C);
    [induction l as [|j l IH]; [reflexivity|]; change (csum ?f (j :: ?l)) with (f j + csum f l)%C; rewrite IH; unfold theta; destruct (list_eq_dec _ jx ix); [contradiction|]; ring|apply Z].
Qed.

(** *** the sources *)
Section Sources.
Context {G : Type}.
Variables (std_normal std_exp std_uniform : list nat -> G -> res (arr R) * G) (poisson : arr R -> list nat -> G -> res (arr Z) * G).
Variables (vshape : list nat) (paths : nat) (lam : arr R).
Let w := (vshape ++ [paths])%list.
Hypothesis HC : can (shp lam) w = true.
Lemma lam_new : poisson_new paths vshape (IArr lam) = Ok (PArr lam).
Proof. unfold poisson_new. cbn [variable_param_setup get_param_shape checked]. fold w. rewrite HC. reflexivity. Qed.
Lemma any_scalar p (x : R) : any p (ascalar x) = p x.
Proof. unfold any. cbn. apply orb_false_r. Qed.
Lemma merton_is a b s : 0 <= b ->
  merton_source_dj std_normal poisson GNone GNone (IArr lam) (IArr (ascalar a)) (IArr (ascalar b)) paths vshape = Ok s ->
  s = cp_src (rvs_of (Fixed _ (norm_sampler std_normal a b))) poisson vshape paths lam.
Proof.
  intros Hb. unfold merton_source_dj, norm_rv, make_variable. cbn [existsb is_callable orb params_at param_at rbind norm_new].
  change (bshape (shp (ascalar a)) (shp (ascalar b))) with (Some (@nil nat)). cbv iota beta. cbn [rbind].
  change {| shp := []; dat := bget (ascalar b) |} with (ascalar b). rewrite any_scalar.
  assert (Q : nlt b nzero = false). { cbn [nlt Num_R nzero]. destruct (Rlt_dec b 0); [lra|reflexivity]. }
  rewrite Q. cbv beta iota. unfold source_dj, source_setup, cpoisson_source, source_setup, poisson_source. rewrite lam_new. cbn [rbind]. intro H. injection H as <-. reflexivity.
Qed.
Lemma kou_is a b pa s : 0 < a -> 0 < b -> 0 <= pa <= 1 ->
  kou_source_dj std_exp std_uniform poisson GNone GNone (IArr lam) (IArr (ascalar a)) (IArr (ascalar b)) (IArr (ascalar pa)) paths vshape = Ok s ->
  s = cp_src (rvs_of (Fixed _ (double_sampler std_exp std_uniform a b pa))) poisson vshape paths lam.
Proof.
  intros Ha Hb Hp. unfold kou_source_dj, double_exp_rv, make_variable. cbn [existsb is_callable orb params_at param_at rbind double_exp_new]. unfold double_new.
  change (bshape (shp (ascalar a)) (shp (ascalar b))) with (Some (@nil nat)). cbv iota beta. change (bshape [] (shp (ascalar pa))) with (Some (@nil nat)). cbv iota beta zeta.
  change {| shp := []; dat := bget (ascalar a) |} with (ascalar a). change {| shp := []; dat := bget (ascalar b) |} with (ascalar b). change {| shp := []; dat := bget (ascalar pa) |} with (ascalar pa).
  rewrite !any_scalar. cbn [nlt Num_R nzero none].
  destruct (Rlt_dec 0 a); [|lra]. destruct (Rlt_dec 0 b); [|lra]. destruct (Rlt_dec 1 pa); [lra|]. destruct (Rlt_dec pa 0); [lra|]. cbn [negb orb rbind].
  unfold source_dj, source_setup, cpoisson_source, source_setup, poisson_source. rewrite lam_new. cbn [rbind]. intro H. injection H as <-. reflexivity.
Qed.
Lemma merton_exists a b : exists s, merton_source_dj std_normal poisson GNone GNone (IArr lam) (IArr (ascalar a)) (IArr (ascalar b)) paths vshape = Ok s.
Proof.
  unfold merton_source_dj, norm_rv, make_variable. cbn [existsb is_callable orb params_at param_at rbind norm_new].
  change (bshape (shp (ascalar a)) (shp (ascalar b))) with (Some (@nil nat)). cbv iota beta. cbn [rbind].
  unfold source_dj, source_setup, cpoisson_source, source_setup, poisson_source. rewrite lam_new. cbn [rbind]. eexists. reflexivity.
Qed.
Lemma kou_exists a b pa : 0 < a -> 0 < b -> 0 <= pa <= 1 ->
  exists s, kou_source_dj std_exp std_uniform poisson GNone GNone (IArr lam) (IArr (ascalar a)) (IArr (ascalar b)) (IArr (ascalar pa)) paths vshape = Ok s.
Proof.
  intros Ha Hb Hp. unfold kou_source_dj, double_exp_rv, make_variable. cbn [existsb is_callable orb params_at param_at rbind double_exp_new]. unfold double_new.
  change (bshape (shp (ascalar a)) (shp (ascalar b))) with (Some (@nil nat)). cbv iota beta. change (bshape [] (shp (ascalar pa))) with (Some (@nil nat)). cbv iota beta zeta.
  change {| shp := []; dat := bget (ascalar a) |} with (ascalar a). change {| shp := []; dat := bget (ascalar b) |} with (ascalar b). change {| shp := []; dat := bget (ascalar pa) |} with (ascalar pa).
  rewrite !any_scalar. cbn [nlt Num_R nzero none].
  destruct (Rlt_dec 0 a); [|lra]. destruct (Rlt_dec 0 b); [|lra]. destruct (Rlt_dec 1 pa); [lra|]. destruct (Rlt_dec pa 0); [lra|]. cbn [negb orb rbind].
  unfold source_dj, source_setup, cpoisson_source, source_setup, poisson_source. rewrite lam_new. cbn [rbind]. eexists. reflexivity.
Qed.
(** the source always gives values, of the shape required *)
Lemma cp_total rvs : poisson_ok poisson -> (forall tm m j g, exists y g', rvs tm m j g = (Ok y, g') /\ shp y = [m; j]) ->
  ndindex w <> [] -> (forall ix, inb (shp lam) ix -> 0 <= dat lam ix) ->
  forall g t dt, exists g' z, at_step (cp_src rvs poisson vshape paths lam) g t dt = Ok (g', z) /\ can (shp z) w = true.
Proof.
  intros PO RO NE HP g t dt.
  destruct (C67_cpoisson poisson rvs PO RO (IArr lam) (PArr lam) paths vshape lam_new) as (s & E & C); auto.
  { intro tm. exists lam. split; [reflexivity|]. split; [apply can_broadcasts; exact HC|exact HP]. }
  unfold source_dj, source_setup, cpoisson_source, source_setup, poisson_source in E. rewrite lam_new in E. cbn [rbind] in E. injection E as <-. apply at_step_total. exact C.
Qed.
Lemma norm_total a b : normal_ok std_normal -> forall (tm : R) m j g, exists y g', rvs_of (Fixed _ (norm_sampler std_normal a b)) tm m j g = (Ok y, g') /\ shp y = [m; j].
Proof. intros N tm m j g. cbn [rvs_of]. rewrite norm_eq. destruct (N [m; j] g) as (z & g' & E & _). unfold dbind, dret. rewrite E. eexists _, g'. split; reflexivity. Qed.
Lemma double_total a b pa : normal_ok std_exp -> normal_ok std_uniform -> forall (tm : R) m j g, exists y g', rvs_of (Fixed _ (double_sampler std_exp std_uniform a b pa)) tm m j g = (Ok y, g') /\ shp y = [m; j].
Proof.
  intros N U tm m j g. cbn [rvs_of]. rewrite double_eq. unfold dbind, dret. destruct (N [m; j] g) as (z & g1 & E & _). rewrite E. destruct (N [m; j] g1) as (z2 & g2 & E2 & _). rewrite E2.
  destruct (U [m; j] g2) as (v & g3 & E3 & _). rewrite E3. eexists _, g3. split; reflexivity.
Qed.
End Sources.

(** *** the equation of the jump diffusions *)
Lemma jumpdiff_drift w args mu sigma : const_arg args "mu" mu -> const_arg args "sigma" sigma -> broadcasts (shp mu) w -> broadcasts (shp sigma) w ->
  forall t x, exists a, jumpdiff_sde t (mkArr w x) (map (fun '(k, z) => (k, peval t z)) args) = Ok (RDict [("dt"%string, a); ("dw"%string, sigma); ("dj"%string, ascalar 1)]) /\
    can (shp a) w = true /\ forall ix, inb w ix -> bget a ix = bget mu ix - bget sigma ix * bget sigma ix / 2.
Proof.
  intros CM CS BM BS t x. destruct (lognorm_drift w args mu sigma CM CS BM BS) as [_ H]. destruct (H t x) as (a & E & B & V). exists a.
  unfold lognorm_sde in E. unfold jumpdiff_sde. rewrite (arg_eval _ _ _ _ CM), (arg_eval _ _ _ _ CS) in *. cbn [rbind peval] in *.
  destruct (log_drift mu sigma) as [d|]; cbn [rbind] in *; [|discriminate]. injection E as <-. split; [reflexivity|]. split; [apply can_broadcasts; exact B|].
  intros ix I. rewrite V by exact I. ring.
Qed.

(** *** jump diffusions *)
Section Diffusions.
Context {G : Type}.
Variable L : nat -> (G -> R) -> R.
Hypothesis HL : is_law L.
Variables (normal : list nat -> G -> res (arr R) * G) (mvnormal : arr R -> list nat -> G -> res (arr R) * G) (poisson : arr R -> list nat -> G -> res (arr Z) * G).
Hypothesis N_ok : normal_ok normal.
Hypothesis P_ok : poisson_ok poisson.
Variables (vshape : list nat) (paths : nat).
Let w := (vshape ++ [paths])%list.
Hypothesis NE : ndindex w <> [].
Hypothesis N_law : normal_law L normal w.
Variables (rvs : R -> nat -> nat -> G -> res (arr R) * G) (Dm : C -> Prop) (J : C -> C) (q : nat).
Hypothesis R_ok : forall tm m j g, exists y g', rvs tm m j g = (Ok y, g') /\ shp y = [m; j].
Hypothesis D0 : Dm 0%C.
Hypothesis R_law : jump_law L rvs Dm J q.
Variables (x0 mu sigma lam : arr R) (args : dict (M_sde.param R R)).
Hypothesis CM : const_arg args "mu" mu.
Hypothesis CS : const_arg args "sigma" sigma.
Hypothesis BX : broadcasts (shp x0) w.
Hypothesis BM : broadcasts (shp mu) w.
Hypothesis BS : broadcasts (shp sigma) w.
Hypothesis BL : broadcasts (shp lam) w.
Hypothesis LP : forall ix, inb (shp lam) ix -> 0 <= dat lam ix.
Variables (pace_fn : list R -> list R) (fuel : nat) (inf : jinfo R) (timeline : list R) (t0 : R).
Hypothesis V0 : valid_timeline timeline.
Hypothesis N0 : nth_error timeline 0 = Some t0.
Hypothesis HF : (List.length timeline + List.length (pace_fn timeline) <= fuel)%nat.
Hypothesis P_law : forall a b, In a (timeline ++ pace_fn timeline)%list -> In b (timeline ++ pace_fn timeline)%list -> a < b ->
  poisson_law L poisson (amap (fun l => (b - a) * l) lam) w.
Variable dn_value : G -> option (arr R).

Lemma jumpdiff_levy d : ((q * List.length (ndindex w) + 2) * (List.length timeline + List.length (pace_fn timeline)) <= d)%nat ->
  let run g := sde_call Rminus (jumpdiff_process Rminus (at_step (wiener_call normal mvnormal paths vshape PNone)) (at_step (cp_src rvs poisson vshape paths lam)) dn_value false vshape paths x0 args)
      0 pace_fn fuel (g, inf) [List.length timeline] timeline in
  (forall g, exists s' xx, run g = Ok (s', xx)) /\
  (forall g i ix, (i < List.length timeline)%nat -> inb w ix -> 0 < value_at (run g) i ix) /\
  levy_values (L d) w (fun ix z => wiener_exponent (bget mu ix - bget sigma ix * bget sigma ix / 2) (bget sigma ix) z + jump_exponent (bget lam ix) J z)%C Dm (fun ix => ln (bget x0 ix)) timeline
    (fun g i ix => ln (value_at (run g) i ix)).
Proof.
  intros Hd.
  assert (RV : rvs_ok rvs). { intros tm m j ga y gb Ey. destruct (R_ok tm m j ga) as (y' & gc & E' & S). rewrite E' in Ey. injection Ey as <- _. exact S. }
  assert (X := dj_levy (I := jinfo R) L HL normal mvnormal N_ok vshape paths N_law jumpdiff_sde true false x0 sigma args (fun ix => bget mu ix - bget sigma ix * bget sigma ix / 2)
    (proj2 (can_broadcasts _ _) BX) pace_fn fuel inf timeline t0 V0 N0 HF (proj2 (can_broadcasts _ _) BS) (jumpdiff_drift w args mu sigma CM CS BM BS)
    (at_step (cp_src rvs poisson vshape paths lam)) (cp_total poisson vshape paths lam (proj2 (can_broadcasts _ _) BL) rvs P_ok R_ok NE LP)
    (fun ix z => jump_exponent (bget lam ix) J z) Dm (S (q * List.length (ndindex w))) D0).
  assert (Y := X ltac:(intros a b u D Psi z Ia Ib Hab HU HP; apply (em_dj L HL rvs RV Dm J q D0 R_law poisson P_ok vshape paths lam NE); auto; lra) d). clear X.
  cbv zeta in Y. destruct Y as (Y1 & Y2 & Y3). { fold w. nia. }
  split; [exact Y1|]. split; [exact (Y2 eq_refl)|exact Y3].
Qed.
End Diffusions.
