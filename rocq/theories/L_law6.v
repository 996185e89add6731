(** Lemmas on the law of the values of Wiener, lognormal and jump diffusion processes. *)
From Coq Require Import String List Arith Bool ZArith Reals Lra Lia Sorted.
From Coquelicot Require Import Coquelicot.
From Verif Require Import Base BaseOrd BaseNum BaseArr M_paths S_paths S_run L_ord L_paths8
  M_process M_source S_source M_sde S_sde L_sde L_sde2 L_sde3 M_presets S_presets L_presets M_integrate S_integrate P_source P_source4 S_true2 S_euler L_euler L_euler2
  BaseNd BaseIdx S_process L_nd P_source3 M_rv S_rv M_analytical S_analytical M_jumps S_law P_chf L_law L_law2 L_law3 L_law4 L_law5.
Import ListNotations.
Local Open Scope R_scope.

(** *** equations with jumps *)
Lemma dj_next_ok {I G} (ig : integ R R G I) dw dj a b c wd t t' x wd' x' :
  ig_ids ig = dj_ids -> ig_src ig = dj_src dw dj ->
  ig_A ig t (mkArr (ig_w ig) x) = Ok [("dt"%string, a); ("dw"%string, b); ("dj"%string, c)] ->
  euler_next Rminus ig wd t t' x = Ok (wd', x') ->
  exists wd1 y z, dj wd t (t' - t) = Ok (wd1, y) /\ dw wd1 t (t' - t) = Ok (wd', z) /\
    forall ix, inb (ig_w ig) ix -> x' ix = x ix + (bget a ix * (t' - t) + bget b ix * bget z ix + bget c ix * bget y ix).
Proof.
  intros EI ES EA H. unfold euler_next in H. rewrite EA in H. cbn [rbind] in H.
  unfold dZ in H. rewrite EI in H. change (ssort dj_ids) with ["dj"; "dt"; "dw"]%string in H.
  cbn [eval_sources] in H. rewrite ES in H.
  change (dj_src dw dj "dj"%string wd t (t' - t)) with (dj wd t (t' - t)) in H.
  destruct (dj wd t (t' - t)) as [[wd1 y]|]; cbn [rbind] in H; [|discriminate].
  change (dj_src dw dj "dt"%string wd1 t (t' - t)) with (Ok (wd1, ascalar (t' - t)) : res (G * arr R)) in H. cbn [rbind] in H.
  change (dj_src dw dj "dw"%string wd1 t (t' - t)) with (dw wd1 t (t' - t)) in H.
  destruct (dw wd1 t (t' - t)) as [[wd2 z]|] eqn:EW; cbn [rbind] in H; [|discriminate].
  cbn [euler_sum lookup String.eqb Ascii.eqb Bool.eqb] in H.
  destruct (aop nmul a _) as [p|] eqn:E1; cbn [rbind] in H; [|discriminate].
  destruct (aop nadd _ p) as [s1|] eqn:E2; cbn [rbind] in H; [|discriminate].
  destruct (aop nmul b z) as [p2|] eqn:E3; cbn [rbind] in H; [|discriminate].
  destruct (aop nadd s1 p2) as [s2|] eqn:E4; cbn [rbind] in H; [|discriminate].
  destruct (aop nmul c y) as [p3|] eqn:E7; cbn [rbind] in H; [|discriminate].
  destruct (aop nadd s2 p3) as [s3|] eqn:E8; cbn [rbind] in H; [|discriminate].
  destruct (aop nadd _ s3) as [r|] eqn:E5; cbn [rbind] in H; [|discriminate].
  destruct (assign _ r) as [q|] eqn:E6; cbn [rbind] in H; [|discriminate].
  injection H as <- <-. exists wd1, y, z. split; auto. split; auto. intros ix HI.
  apply assign_ok in E6. destruct E6 as [-> _].
  rewrite (aop_get _ _ _ _ ix E5), (aop_get _ _ _ _ ix E8), (aop_get _ _ _ _ ix E7), (aop_get _ _ _ _ ix E4), (aop_get _ _ _ _ ix E3),
    (aop_get _ _ _ _ ix E2), (aop_get _ _ _ _ ix E1).
  rewrite bget_self by exact HI. cbn [dat nadd nmul Num_R]. change (bget (ascalar (nzero (V := R))) ix) with 0. change (bget (ascalar (t' - t)) ix) with (t' - t). ring.
Qed.
Lemma dj_check d1 d2 d3 : @check_dict R dj_ids (RDict [("dt"%string, d1); ("dw"%string, d2); ("dj"%string, d3)]) =
  Ok [("dt"%string, d1); ("dw"%string, d2); ("dj"%string, d3)].
Proof. reflexivity. Qed.
Lemma dj_total {I Wd} (sde : R -> arr R -> dict (arr R) -> res (sdeval R)) log dw dj gi vshape paths x0 args :
  let w := (vshape ++ [paths])%list in
  can (shp x0) w = true ->
  (forall t x, exists a b c, sde t (mkArr w x) (map (fun '(k, z) => (k, peval t z)) args) =
       Ok (RDict [("dt"%string, a); ("dw"%string, b); ("dj"%string, c)]) /\ can (shp a) w = true /\ can (shp b) w = true /\ can (shp c) w = true) ->
  (forall wd t dt, exists wd' z, dw wd t dt = Ok (wd', z) /\ can (shp z) w = true) ->
  (forall wd t dt, exists wd' z, dj wd t dt = Ok (wd', z) /\ can (shp z) w = true) ->
  total_integ (mk_sde (I := I) (Wd := Wd) dj_ids (dj_src dw dj) log sde gi vshape paths x0 args) (fun _ => True).
Proof.
  intros w HX HA HD HJ. split; cbn.
  - intros t. unfold sde_init. rewrite assign_can by auto. eauto.
  - intros t x. destruct (HA t x) as (a & b & c & E & C1 & C2 & C3). subst w. unfold sde_A. rewrite E. cbn [rbind].
    rewrite dj_check. eexists. split; [reflexivity|]. constructor; [split; [left|]; auto|].
    constructor; [split; [right; left|]; auto|]. constructor; [split; [right; right; left|]; auto|]. constructor.
  - intros id wd t dt HI AD. destruct HI as [<-|[<-|[<-|[]]]].
    + exists wd, (ascalar dt). repeat split; auto.
    + destruct (HD wd t dt) as (wd' & z & E & C). exists wd', z. auto.
    + destruct (HJ wd t dt) as (wd' & z & E & C). exists wd', z. auto.
  - intros t x. unfold sde_let. rewrite assign_can by (apply can_refl). eauto.
  - unfold no_info_next. eauto.
  - unfold no_info_end. eauto.
Qed.

Section Processes.
Context {G I : Type}.
Variable L : nat -> (G -> R) -> R.
Hypothesis HL : is_law L.
Variables (normal : list nat -> G -> res (arr R) * G) (mvnormal : arr R -> list nat -> G -> res (arr R) * G).
Hypothesis N_ok : normal_ok normal.
Variables (vshape : list nat) (paths : nat).
Let w := (vshape ++ [paths])%list.
Hypothesis N_law : normal_law L normal w.
Let dw : G -> R -> R -> res (G * arr R) := at_step (wiener_call normal mvnormal paths vshape PNone).
Variables (sde : R -> arr R -> dict (arr R) -> res (sdeval R)) (log gi : bool) (x0 b : arr R) (args : dict (M_sde.param R R)) (al : list nat -> R).
Hypothesis HX : can (shp x0) w = true.
Variables (pace_fn : list R -> list R) (fuel : nat) (inf : I) (timeline : list R) (t0 : R).
Hypothesis V0 : valid_timeline timeline.
Hypothesis N0 : nth_error timeline 0 = Some t0.
Hypothesis HF : (List.length timeline + List.length (pace_fn timeline) <= fuel)%nat.

(** *** without jumps *)
Section Without.
Hypothesis HS : drift_noise w sde args (fun t x ix => al ix) b.
Definition dw_inc (g : G) (t dt : R) : G * (list nat -> R) :=
  match dw g t dt with Ok (g', z) => (g', fun ix => al ix * dt + bget b ix * bget z ix) | Err _ => (g, fun _ => 0) end.
Lemma dw_step t dt u D Psi z : 0 <= dt -> em L D Psi z ->
  em L (1 + D) (one_step dw_inc w u t dt Psi) (cprod (fun ix => cexp (RtoC dt * wiener_exponent (al ix) (bget b ix) (u ix))%C) (ndindex w) * z)%C.
Proof.
  intros Hdt H. set (k := cexp (csum (fun ix => u ix * RtoC (al ix * dt))%C (ndindex w))).
  assert (X := em_scal L HL _ _ _ k (em_dw L HL normal mvnormal N_ok vshape paths N_law (fun ix => u ix * RtoC (bget b ix))%C t dt D Psi z H)).
  eapply em_ext; [exact HL| |].
  2: { replace (cprod _ _ * z)%C with (k * (cprod (fun ix => cexp (RtoC (Rabs dt/2) * (u ix * RtoC (bget b ix) * (u ix * RtoC (bget b ix))))%C) (ndindex w) * z))%C; [exact X|].
       rewrite Cmult_assoc. f_equal. unfold k. rewrite cexp_csum, <- cprod_mult. apply cprod_ext. intros ix _. rewrite <- cexp_add. f_equal. rewrite Rabs_pos_eq by auto.
       unfold wiener_exponent, Rdiv. rewrite !RtoC_mult. ring. }
  intro g. unfold step_of, one_step, dw_inc. fold dw.
  destruct (dw_value normal mvnormal N_ok vshape paths g t dt) as (y & E & _). fold dw in E. rewrite E. cbn [fst snd]. rewrite Cmult_assoc. f_equal. unfold k. rewrite <- cexp_add. f_equal. fold w. rewrite <- csum_plus. apply csum_ext.
  intros ix _. rewrite RtoC_plus, !RtoC_mult. ring.
Qed.
Lemma dw_levy d : (List.length timeline + List.length (pace_fn timeline) <= d)%nat ->
  let run g := sde_call Rminus (mk_sde dw_ids (dw_src dw) log sde gi vshape paths x0 args) 0 pace_fn fuel (g, inf) [List.length timeline] timeline in
  (forall g, exists s' xx, run g = Ok (s', xx)) /\
  (log = true -> forall g i ix, (i < List.length timeline)%nat -> inb w ix -> 0 < value_at (run g) i ix) /\
  levy_values (L d) w (fun ix => wiener_exponent (al ix) (bget b ix)) (fun _ => True) (fun ix => if log then ln (bget x0 ix) else bget x0 ix) timeline
    (fun g i ix => if log then ln (value_at (run g) i ix) else value_at (run g) i ix).
Proof.
  intro Hd. destruct HS as [CB HA]. apply can_broadcasts in CB.
  apply (levy_run L HL dw_ids (dw_src dw) vshape paths sde log gi x0 args HX) with (inc := dw_inc) (c := 1%nat) (t0 := t0); auto; try lia.
  - apply dw_total; auto.
    + intros t x. destruct (HA t x) as (a & E & C & _). apply can_broadcasts in C. exists a, b. auto.
    + intros wd t dt _. destruct (dw_value normal mvnormal N_ok vshape paths wd t dt) as (z & E & C & _). eauto.
  - intros u t t' x u' x' E. destruct (HA t x) as (a & EA & CA & Ha).
    edestruct (dw_next_ok Rminus (mk_sde (I := I) dw_ids (dw_src dw) log sde gi vshape paths x0 args) dw a b u t t' x u' x' eq_refl eq_refl) as (z & EZ & HN); [|exact E|].
    { cbn [ig_A mk_sde]. unfold sde_A. cbn [ig_w mk_sde]. fold w. rewrite EA. cbn [rbind]. apply dw_check. }
    unfold dw_inc. rewrite EZ. cbn [fst snd]. split; auto. intros ix HI. rewrite HN by exact HI. rewrite Ha by auto. cbn [nadd nmul nzero Num_R]. ring.
  - intros a c u D Psi z _ _ Hac _ HP. apply dw_step; auto. lra.
Qed.
End Without.

(** *** with jumps *)
Section With.
Hypothesis CB : can (shp b) w = true.
Hypothesis HS : forall t x, exists a, sde t (mkArr w x) (map (fun '(k, z) => (k, peval t z)) args) = Ok (RDict [("dt"%string, a); ("dw"%string, b); ("dj"%string, ascalar 1)]) /\
  can (shp a) w = true /\ forall ix, inb w ix -> bget a ix = al ix.
Variable dj : G -> R -> R -> res (G * arr R).
Hypothesis J_ok : forall g t dt, exists g' z, dj g t dt = Ok (g', z) /\ can (shp z) w = true.
Variables (chi : list nat -> C -> C) (Dm : C -> Prop) (c : nat).
Hypothesis D0 : Dm 0%C.
Hypothesis J_law : forall p q u D Psi z, In p (timeline ++ pace_fn timeline)%list -> In q (timeline ++ pace_fn timeline)%list -> p < q -> (forall ix, Dm (u ix)) -> em L D Psi z ->
  em L (c + D) (step_of dj w u p (q - p) Psi) (cprod (fun ix => cexp (RtoC (q - p) * chi ix (u ix))%C) (ndindex w) * z)%C.
Definition dj_inc (g : G) (t dt : R) : G * (list nat -> R) :=
  match dj g t dt with
  | Ok (g1, y) => (fst (dw_inc g1 t dt), fun ix => snd (dw_inc g1 t dt) ix + bget y ix)
  | Err _ => (g, fun _ => 0)
  end.
Lemma dj_levy d : ((S c) * (List.length timeline + List.length (pace_fn timeline)) <= d)%nat ->
  let run g := sde_call Rminus (mk_sde dj_ids (dj_src dw dj) log sde gi vshape paths x0 args) 0 pace_fn fuel (g, inf) [List.length timeline] timeline in
  (forall g, exists s' xx, run g = Ok (s', xx)) /\
  (log = true -> forall g i ix, (i < List.length timeline)%nat -> inb w ix -> 0 < value_at (run g) i ix) /\
  levy_values (L d) w (fun ix z => wiener_exponent (al ix) (bget b ix) z + chi ix z)%C Dm (fun ix => if log then ln (bget x0 ix) else bget x0 ix) timeline
    (fun g i ix => if log then ln (value_at (run g) i ix) else value_at (run g) i ix).
Proof.
  intro Hd.
  apply (levy_run L HL dj_ids (dj_src dw dj) vshape paths sde log gi x0 args HX) with (inc := dj_inc) (c := S c) (t0 := t0); auto.
  - apply dj_total; auto.
    + intros t x. destruct (HS t x) as (a & E & C & _). exists a, b, (ascalar 1). repeat split; auto.
    + intros wd t dt. destruct (dw_value normal mvnormal N_ok vshape paths wd t dt) as (z & E & C & _). eauto.
  - intros u t t' x u' x' E. destruct (HS t x) as (a & EA & CA & Ha).
    edestruct (dj_next_ok (mk_sde (I := I) dj_ids (dj_src dw dj) log sde gi vshape paths x0 args) dw dj a b (ascalar 1) u t t' x u' x' eq_refl eq_refl) as (g1 & y & z & EY & EZ & HN); [|exact E|].
    { cbn [ig_A mk_sde]. unfold sde_A. cbn [ig_w mk_sde]. fold w. rewrite EA. cbn [rbind]. apply dj_check. }
    unfold dj_inc. rewrite EY. unfold dw_inc. rewrite EZ. cbn [fst snd]. split; auto. intros ix HI. rewrite HN by exact HI. rewrite Ha by auto. change (bget (ascalar 1) ix) with 1. ring.
  - intros p q u D Psi z Ip Iq Hpq HU HP. assert (X := dw_step p (q - p) u D Psi z ltac:(lra) HP). apply (J_law p q u _ _ _ Ip Iq Hpq HU) in X.
    eapply em_le with (D := (c + (1 + D))%nat); [lia|]. eapply em_ext; [exact HL| |].
    2: { replace (cprod _ _ * z)%C with (cprod (fun ix => cexp (RtoC (q - p) * chi ix (u ix))) (ndindex w) * (cprod (fun ix => cexp (RtoC (q - p) * wiener_exponent (al ix) (bget b ix) (u ix))) (ndindex w) * z))%C; [exact X|].
         rewrite Cmult_assoc. f_equal. rewrite <- cprod_mult. apply cprod_ext. intros ix _. rewrite <- cexp_add. f_equal. ring. }
    intro g. unfold step_of, one_step, dj_inc. destruct (J_ok g p (q - p)) as (g1 & y & E & _). rewrite E. cbn [fst snd]. rewrite Cmult_assoc. f_equal. rewrite <- cexp_add. f_equal. rewrite <- csum_plus. apply csum_ext.
    intros ix _. rewrite RtoC_plus. ring.
Qed.
End With.
End Processes.
