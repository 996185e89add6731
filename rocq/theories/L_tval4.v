(** Lemmas on the law of antithetic Wiener increments, and on processes integrated with any source of Gaussian increments. *)
From Coq Require Import String List Arith Bool ZArith Reals Lra Lia Sorted.
From Coquelicot Require Import Coquelicot.
From Verif Require Import Base BaseOrd BaseNum BaseArr M_paths S_paths S_run L_ord L_paths8
  M_process M_source S_source M_sde S_sde L_sde L_sde2 L_sde3 M_presets S_presets L_presets M_integrate S_integrate P_source P_source2 P_source4 S_true2 S_euler L_euler L_euler2
  BaseNd BaseIdx S_process L_nd L_pack L_process P_source3 M_rv S_rv M_analytical S_analytical M_anti S_law P_chf L_law L_law2 L_law4 L_law5 S_gval L_gval L_gval2 L_gval3 L_gval4 S_tval L_tval L_tval2 L_tval3.
Import ListNotations.
Local Open Scope R_scope.

(** *** halves *)
Lemma half_first n r j : (j < n)%nat -> half_path n (r ++ [j])%list = (r ++ [j])%list /\ half_sign n (r ++ [j])%list = 1.
Proof. intro H. unfold half_path, half_sign. rewrite rev_app_distr. cbn [rev app]. destruct (Nat.ltb_spec j n); [|lia]. rewrite rev_involutive. auto. Qed.
Lemma half_second n r j : half_path n (r ++ [(n + j)%nat])%list = (r ++ [j])%list /\ half_sign n (r ++ [(n + j)%nat])%list = -1.
Proof. unfold half_path, half_sign. rewrite rev_app_distr. cbn [rev app]. destruct (Nat.ltb_spec (n + j) n); [lia|]. rewrite rev_involutive. replace (n + j - n)%nat with j by lia. auto. Qed.
(** the other path of a pair *)
Definition other (n : nat) (ix : list nat) : list nat := match rev ix with p :: r => rev ((n + p)%nat :: r) | [] => [] end.
Lemma other_snoc n r j : other n (r ++ [j])%list = (r ++ [(n + j)%nat])%list.
Proof. unfold other. rewrite rev_app_distr. cbn [rev app]. rewrite rev_involutive. reflexivity. Qed.
Lemma csum_halves (f : list nat -> C) v n : csum f (ndindex (v ++ [(2*n)%nat])) = csum (fun ix => f ix + f (other n ix))%C (ndindex (v ++ [n])).
Proof.
  rewrite !csum_nd_app. apply csum_ext. intros r _. rewrite !csum_nd_1. replace (2*n)%nat with (n + n)%nat by lia. rewrite seq_app.
  assert (AP : forall (h : nat -> C) l l', csum h (l ++ l') = (csum h l + csum h l')%C).
  { intros h l l'. unfold csum. rewrite map_app, fold_right_app. generalize (map h l). induction l0 as [|a l0 IH]; cbn [fold_right]; [ring|]. rewrite IH. ring. }
  rewrite AP, csum_plus. f_equal. cbn [Nat.add].
  assert (SH : forall m k (h : nat -> C), csum h (seq (m + k) n) = csum (fun j => h (m + j)%nat) (seq k n)).
  { intros m k h. revert k. induction n as [|n0 IH]; intro k; [reflexivity|]. cbn [seq]. change (csum ?F (?a :: ?l)) with (F a + csum F l)%C. rewrite <- (IH (S k)). replace (m + S k)%nat with (S (m + k)) by lia. reflexivity. }
  replace (seq n n) with (seq (n + 0) n) by (f_equal; lia). rewrite SH. apply csum_ext. intros j _. rewrite other_snoc. reflexivity.
Qed.
Lemma qsum_halves (c : list nat -> list nat -> R) v n u :
  qsum (antithetic n c) (ndindex (v ++ [(2*n)%nat])) u = qsum c (ndindex (v ++ [n])) (fun ix => u ix - u (other n ix))%C.
Proof.
  assert (AN : forall ix jx, inb (v ++ [n]) ix -> inb (v ++ [n]) jx ->
    antithetic n c ix jx = c ix jx /\ antithetic n c ix (other n jx) = - c ix jx /\ antithetic n c (other n ix) jx = - c ix jx /\ antithetic n c (other n ix) (other n jx) = c ix jx).
  { intros ix jx HI HJ. apply inb_snoc in HI. destruct HI as (r & i & -> & _ & Hi). apply inb_snoc in HJ. destruct HJ as (s & j & -> & _ & Hj). rewrite !other_snoc. unfold antithetic.
    destruct (half_first n r i Hi) as [-> ->]. destruct (half_first n s j Hj) as [-> ->]. destruct (half_second n r i) as [-> ->]. destruct (half_second n s j) as [-> ->]. repeat split; ring. }
  unfold qsum. rewrite csum_halves. apply csum_ext. intros ix HI. apply in_ndindex in HI. rewrite !csum_halves, <- csum_plus. apply csum_ext. intros jx HJ. apply in_ndindex in HJ.
  destruct (AN ix jx HI HJ) as (-> & -> & -> & ->). rewrite RtoC_opp. ring.
Qed.

(** *** sources *)
Section Source.
Context {G : Type}.
Variable L : nat -> (G -> R) -> R.
(** a source of increments that are jointly Gaussian, with covariances given by cw (start and length of the step) *)
Definition gauss_source (w : list nat) (cw : R -> R -> list nat -> list nat -> R) (dw : G -> R -> R -> res (G * arr R)) : Prop :=
  (forall g t dt, exists g' z, dw g t dt = Ok (g', z) /\ shp z = w) /\
  forall u t dt D Psi z, em L D Psi z -> em L (S D) (step_of dw w u t dt Psi) (cexp (RtoC (Rabs dt/2) * qsum (cw t dt) (ndindex w) u)%C * z)%C.

Hypothesis HL : is_law L.
Variables (normal : list nat -> G -> res (arr R) * G) (mvnormal : arr R -> list nat -> G -> res (arr R) * G).
Hypothesis N_ok : normal_ok normal.
Hypothesis M_ok : mvnormal_ok mvnormal.
Variables (vshape : list nat) (n : nat) (c : R -> nat -> nat -> R).
Hypothesis N_law : normal_law L normal (vshape ++ [n]).
Hypothesis M_law : forall t v M, vshape = (v ++ [M])%list -> mvnormal_law L mvnormal M (c t) (v ++ [n]).
Variables (corr rho : input R).
Hypothesis HC : correlated_at corr rho vshape c.
Lemma wiener_gauss s : wiener_source normal mvnormal corr rho n vshape = Ok s ->
  gauss_source (vshape ++ [n]) (fun t dt => entry_corr (c (t + dt/2))) (at_step s).
Proof using HC HL M_law M_ok N_law N_ok.
  intro HS. destruct (source_kind_at normal mvnormal vshape n c corr rho s HC HS) as (p & -> & K). split.
  - intros g t dt. eapply kind_at_value; eauto.
  - intros u t dt D Psi z. intro H. eapply em_kind_at; eauto.
Qed.
Lemma odd_gauss s : odd_wiener_source normal mvnormal corr rho (2*n) vshape = Ok s ->
  gauss_source (vshape ++ [(2*n)%nat]) (fun t dt => antithetic n (entry_corr (c (t + dt/2)))) (at_step s).
Proof using HC HL M_law M_ok N_law N_ok.
  unfold odd_wiener_source, antithetics_source. destruct (C30_even_paths (2*n)) as [E0 _]. rewrite Nat.even_mul in E0. cbn [Nat.even orb] in E0. rewrite E0. cbn [rbind].
  replace (2*n/2)%nat with n by (rewrite Nat.mul_comm, Nat.div_mul; lia).
  intro HS. destruct (wiener_source normal mvnormal corr rho n vshape) as [s0|] eqn:E; [|discriminate]. cbn [rbind] in HS. injection HS as HS.
  destruct (wiener_gauss s0 E) as [GV GS].
  assert (V : forall g t dt, exists g' z z', at_step s0 g t dt = Ok (g', z) /\ shp z = (vshape ++ [n])%list /\
    at_step s g t dt = Ok (g', z') /\ shp z' = (vshape ++ [(2*n)%nat])%list /\
    forall ix, inb (vshape ++ [n]) ix -> dat z' ix = dat z ix /\ dat z' (other n ix) = - dat z ix).
  { intros g t dt. destruct (GV g t dt) as (g' & z & EZ & S). unfold at_step in EZ. destruct (s0 (ascalar t) (ascalar dt) g) as [[z1|] g1] eqn:E1; [|discriminate].
    injection EZ as -> ->. destruct (C30_halves (fun z => 0 - z) (s0 (ascalar t) (ascalar dt)) g z g' vshape n E1 S) as (z' & H1 & H2 & H3).
    exists g', z, z'. unfold at_step. rewrite E1, <- HS, H1. repeat split; auto.
    - apply inb_snoc in H. destruct H as (r & j & -> & Hr & Hj). apply H3; auto.
    - apply inb_snoc in H. destruct H as (r & j & -> & Hr & Hj). rewrite other_snoc. destruct (H3 r j Hr Hj) as [_ ->]. ring. }
  clear HS. split.
  - intros g t dt. destruct (V g t dt) as (g' & z & z' & _ & _ & E1 & E2 & _). eauto.
  - intros u t dt D Psi z H. rewrite qsum_halves. refine (em_ext L HL _ _ _ _ _ (GS (fun ix => u ix - u (other n ix))%C t dt D Psi z H)).
    intro g. unfold step_of. destruct (V g t dt) as (g' & y & y' & E1 & S1 & E2 & S2 & HV). rewrite E1, E2. do 2 f_equal. rewrite csum_halves. apply csum_ext. intros ix HI. apply in_ndindex in HI.
    destruct (HV ix HI) as [V1 V2].
    assert (HO : inb (vshape ++ [(2*n)%nat]) ix /\ inb (vshape ++ [(2*n)%nat]) (other n ix)).
    { apply inb_snoc in HI. destruct HI as (r & j & -> & Hr & Hj). rewrite other_snoc. split; apply inb_app; auto; repeat constructor; lia. }
    destruct HO as [HO1 HO2]. rewrite (bget_self y) by (rewrite S1; auto). rewrite !(bget_self y') by (rewrite S2; auto). rewrite V1, V2, RtoC_opp. ring.
Qed.
End Source.

(** *** processes *)
Definition drift_noise_at (w : list nat) (sde : R -> arr R -> dict (arr R) -> res (sdeval R)) (args : dict (M_sde.param R R))
           (al ka : R -> list nat -> R) (b : R -> arr R) : Prop :=
  forall t, broadcasts (shp (b t)) w /\ forall x, exists a,
    sde t (mkArr w x) (map (fun '(k, z) => (k, peval t z)) args) = Ok (RDict [("dt"%string, a); ("dw"%string, b t)]) /\
    broadcasts (shp a) w /\ forall ix, inb w ix -> bget a ix = al t ix - ka t ix * x ix.

Section Processes.
Context {G I : Type}.
Variable L : nat -> (G -> R) -> R.
Hypothesis HL : is_law L.
Variables (wshape : list nat) (paths : nat) (cw : R -> R -> list nat -> list nat -> R) (dw : G -> R -> R -> res (G * arr R)).
Let w := (wshape ++ [paths])%list.
Hypothesis HS : gauss_source L w cw dw.

Definition dw_inc (g : G) (t dt : R) : G * (list nat -> R) := match dw g t dt with Ok (g', z) => (g', bget z) | Err _ => (g, fun _ => 0) end.
Lemma dw_gives_can g t dt : exists g' z, dw g t dt = Ok (g', z) /\ can (shp z) w = true.
Proof using HS. destruct HS as [HV _]. destruct (HV g t dt) as (g' & z & E & S). exists g', z. split; [exact E|]. rewrite S. apply can_refl. Qed.
Lemma inc_step t dt u D Psi z : 0 < dt -> em L D Psi z ->
  em L (S D) (one_step dw_inc w u t dt Psi) (cexp (RtoC (dt / 2) * qsum (cw t dt) (ndindex w) u)%C * z)%C.
Proof using HL HS.
  intros Hdt H. assert (X := proj2 HS u t dt D Psi z H). rewrite Rabs_pos_eq in X by lra.
  eapply em_ext; [exact HL| |exact X]. intro g. unfold step_of, one_step, dw_inc. destruct (dw_gives_can g t dt) as (g' & y & EY & _). rewrite EY. reflexivity.
Qed.

Variables (pace_fn : list R -> list R) (fuel : nat) (inf : I) (timeline : list R) (t0 : R).
Hypothesis V0 : valid_timeline timeline.
Hypothesis N0 : nth_error timeline 0 = Some t0.
Hypothesis HF : (List.length timeline + List.length (pace_fn timeline) <= fuel)%nat.
Notation at_n f gr := (fun n : nat => f (nth n gr 0)).
Notation cw_n gr := (fun n : nat => cw (nth n gr 0) (gap gr n)).

(** one equation, with default methods *)
Section One.
Variables (sde : R -> arr R -> dict (arr R) -> res (sdeval R)) (log gi : bool) (x0 : arr R) (b : R -> arr R) (args : dict (M_sde.param R R)) (al ka : R -> list nat -> R).
Hypothesis HX : can (shp x0) w = true.
Hypothesis HD : drift_noise_at w sde args al ka b.
Let bb (t : R) : list nat -> R := bget (b t).
Lemma tone_gaussian d : (List.length timeline + List.length (pace_fn timeline) <= d)%nat ->
  let run g := sde_call Rminus (mk_sde (I := I) dw_ids (dw_src dw) log sde gi wshape paths x0 args) 0 pace_fn fuel (g, inf) [List.length timeline] timeline in
  let N := List.length timeline in
  (forall g, exists s' xx, run g = Ok (s', xx)) /\
  (log = true -> forall g i ix, (i < N)%nat -> inb w ix -> 0 < value_at (run g) i ix) /\
  exists gr kk, on_times timeline (pace_fn timeline) t0 gr kk /\
    (forall g i ix, (i < N)%nat -> inb w ix -> (let v := value_at (run g) i ix in if log then ln v else v) =
       twalk dw_inc gr (fun ix => if log then ln (bget x0 ix) else bget x0 ix) (at_n al gr) (at_n ka gr) (at_n bb gr) (kk i) g ix) /\
    gaussian (L d) (entries N w)
      (fun g a => let v := value_at (run g) (fst a) (snd a) in if log then ln v else v)
      (fun a => tmean gr (fun ix => if log then ln (bget x0 ix) else bget x0 ix) (at_n al gr) (at_n ka gr) (snd a) (kk (fst a)))
      (fun a a' => tcov gr (cw_n gr) (at_n ka gr) (at_n bb gr) (kk (fst a), snd a) (kk (fst a'), snd a') (List.length gr - 1)).
Proof using HD HF HL HS HX N0 V0.
  intros Hd run N. set (ig := mk_sde (I := I) dw_ids (dw_src dw) log sde gi wshape paths x0 args) in *.
  assert (CB : forall t, can (shp (b t)) w = true) by (intro t; apply can_broadcasts, HD).
  assert (HA : forall t x, exists a, sde t (mkArr w x) (map (fun '(k, z) => (k, peval t z)) args) = Ok (RDict [("dt"%string, a); ("dw"%string, b t)]) /\
    can (shp a) w = true /\ forall ix, inb w ix -> bget a ix = al t ix - ka t ix * x ix).
  { intros t x. destruct (HD t) as [_ HA]. destruct (HA x) as (a & E & Cc & Ha). apply can_broadcasts in Cc. eauto. }
  assert (TI : total_integ ig (fun _ => True)).
  { apply dw_total; auto.
    - intros t x. destruct (HA t x) as (a & E & Cc & _). exists a, (b t). auto.
    - intros wd t dt _. destruct (dw_gives_can wd t dt) as (g' & z & E & Cc). exists g', z. auto. }
  set (v0 := fun ix => if log then ln (bget x0 ix) else bget x0 ix).
  destruct (tgauss_run L HL ig w w TI dw_inc v0 al ka bb) with
    (O := fun ix jx => if list_eq_dec Nat.eq_dec ix jx then 1 else 0) (pace_fn := pace_fn) (fuel := fuel) (inf := inf) (timeline := timeline) (t0 := t0) (cw := cw) (d := d)
    as (R1 & R2 & gr & kk & R3 & R5 & R4); auto.
  - intros u t t' x u' x' E. destruct (HA t x) as (a & EA & CA & Ha).
    edestruct (dw_next_ok Rminus ig dw a (b t) u t t' x u' x' eq_refl eq_refl) as (z & EZ & HN); [|exact E|].
    { cbn [ig_A mk_sde ig]. unfold sde_A. cbn [ig_w mk_sde ig]. fold w. rewrite EA. cbn [rbind]. apply dw_check. }
    unfold dw_inc. rewrite EZ. cbn [fst snd]. split; auto. intros ix HI. rewrite HN by exact HI. rewrite Ha by auto. unfold bb. cbn [nadd nmul nzero Num_R]. ring.
  - intros t x EI ix HI. cbn [ig_init mk_sde ig] in EI. unfold sde_init in EI. fold w in EI. rewrite assign_can in EI by auto. injection EI as <-. cbn [ig_log mk_sde ig]. reflexivity.
  - intros t x y EL ix HI. cbn [ig_let mk_sde ig] in EL. unfold sde_let in EL. fold w in EL. rewrite assign_can in EL by apply can_refl. injection EL as <-. rewrite rsum_self by auto. rewrite bget_self by auto. reflexivity.
  - intros. apply inc_step; auto.
  - split; [exact R1|]. split; [exact R2|]. exists gr, kk. split; [exact R3|]. split.
    { intros g i ix Hi HI. refine (eq_trans (R5 g i ix Hi HI) _). apply (rsum_self (fun jx => twalk dw_inc gr v0 (at_n al gr) (at_n ka gr) (at_n bb gr) (kk i) g jx)). exact HI. }
    destruct HL as [HE _].
    eapply gaussian_ext; [apply HE|exact R4|reflexivity|..].
    + intros [i ix] Ha. apply in_prod_iff in Ha. destruct Ha as [_ Hix]. apply in_ndindex in Hix. cbn [fst snd]. apply (rsum_self (fun jx => tmean gr v0 (at_n al gr) (at_n ka gr) jx (kk i))). exact Hix.
    + intros [i ix] [j jx] Ha Hc. apply in_prod_iff in Ha. destruct Ha as [_ Hix]. apply in_ndindex in Hix. apply in_prod_iff in Hc. destruct Hc as [_ Hjx]. apply in_ndindex in Hjx. cbn [fst snd].
      set (cc := fun p q => tcov gr (cw_n gr) (at_n ka gr) (at_n bb gr) p q (List.length gr - 1)).
      change (rsum (fun ax => rsum (fun kx => (if list_eq_dec Nat.eq_dec ix ax then 1 else 0) * (if list_eq_dec Nat.eq_dec jx kx then 1 else 0) * cc (kk i, ax) (kk j, kx)) (ndindex w)) (ndindex w) = cc (kk i, ix) (kk j, jx)).
      rewrite (rsum_ext _ (fun ax => (if list_eq_dec Nat.eq_dec ix ax then 1 else 0) * cc (kk i, ax) (kk j, jx))).
      * apply (rsum_self (fun ax => cc (kk i, ax) (kk j, jx))). auto.
      * intros ax _. rewrite <- (rsum_self (fun kx => cc (kk i, ax) (kk j, kx)) jx w Hjx), <- rsum_scal. apply rsum_ext. intros kx _. ring.
Qed.
End One.

(** sum of factors *)
Section Factors.
Variables (vshape : list nat) (F : nat).
Hypothesis EW : wshape = (vshape ++ [F])%list.
Variables (gi : bool) (x0 : arr R) (args : dict (M_sde.param R R)).
Hypothesis HX : can (shp x0) w = true.
Variables (b : R -> arr R) (al ka : R -> list nat -> R).
Hypothesis HD : drift_noise_at w ou_sde args al ka b.
Let bb (t : R) : list nat -> R := bget (b t).
Lemma thw_gaussian d : (List.length timeline + List.length (pace_fn timeline) <= d)%nat ->
  let run g := sde_call Rminus (hull_white_process (I := I) dw gi vshape F paths x0 args) 0 pace_fn fuel (g, inf) [List.length timeline] timeline in
  let N := List.length timeline in
  (forall g, exists s' xx, run g = Ok (s', xx)) /\
  exists gr kk, on_times timeline (pace_fn timeline) t0 gr kk /\
    gaussian (L d) (entries N (vshape ++ [paths]))
      (fun g a => value_at (run g) (fst a) (snd a))
      (fun a => rsum (fun f => tmean gr (bget x0) (at_n al gr) (at_n ka gr) (ins2 f (snd a)) (kk (fst a))) (seq 0 F))
      (fun a a' => rsum (fun f => rsum (fun f' => tcov gr (cw_n gr) (at_n ka gr) (at_n bb gr) (kk (fst a), ins2 f (snd a)) (kk (fst a'), ins2 f' (snd a')) (List.length gr - 1)) (seq 0 F)) (seq 0 F)).
Proof using HD HF HL HS HX N0 V0 EW.
  intros Hd run N. set (ig := hull_white_process (I := I) dw gi vshape F paths x0 args) in *.
  assert (CB : forall t, can (shp (b t)) w = true) by (intro t; apply can_broadcasts, HD).
  assert (HA : forall t x, exists a, ou_sde t (mkArr w x) (map (fun '(k, z) => (k, peval t z)) args) = Ok (RDict [("dt"%string, a); ("dw"%string, b t)]) /\
    can (shp a) w = true /\ forall ix, inb w ix -> bget a ix = al t ix - ka t ix * x ix).
  { intros t x. destruct (HD t) as [_ HA]. destruct (HA x) as (a & E & Cc & Ha). apply can_broadcasts in Cc. eauto. }
  assert (W : w = (vshape ++ [F; paths])%list) by (unfold w; rewrite EW, <- app_assoc; reflexivity).
  assert (SP : pop2 w = (vshape ++ [paths])%list) by (rewrite W, pop2_snoc; reflexivity).
  assert (SD : dim2 w = F) by (rewrite W, dim2_snoc; reflexivity).
  assert (EG : ig = mkInteg dw_ids (dw_src dw) (sde_A dw_ids args ou_sde) w (sde_init w x0) false (fun t x => assign (vshape ++ [paths]) (sum2 (mkArr w x))) gi
          no_info_begin no_info_next no_info_store no_info_end) by (unfold ig, hull_white_process; cbv zeta; rewrite <- W; reflexivity).
  assert (LET : forall x, exists y, assign (vshape ++ [paths]) (sum2 (mkArr w x)) = Ok y /\ forall ix, inb (vshape ++ [paths]) ix -> y ix = rsum (fun f => x (ins2 f ix)) (seq 0 F)).
  { intro x. rewrite assign_can by (unfold sum2; cbn [shp]; rewrite SP; apply can_refl). eexists. split; [reflexivity|]. intros ix HI.
    rewrite bget_self by (unfold sum2; cbn [shp]; rewrite SP; exact HI). unfold sum2. cbn [shp dat]. rewrite SD. cbn [nadd nzero Num_R].
    assert (FR : forall (f : nat -> R) l a, fold_left (fun acc k => acc + f k) l a = a + rsum f l).
    { intros f l. unfold rsum. induction l as [|x' l IH]; intro a; cbn [fold_left map fold_right]; [ring|]. rewrite IH. ring. }
    rewrite (FR (fun k => x (ins2 k ix))). ring. }
  clearbody ig. subst ig.
  match type of run with _ => match eval unfold run in run with context [sde_call _ ?i] => set (ig' := i) in run end end.
  assert (TI : total_integ ig' (fun _ => True)).
  { split; cbn.
    - intros t. unfold sde_init. rewrite assign_can by auto. eauto.
    - intros t x. destruct (HA t x) as (a & E & Cc & _). unfold sde_A. rewrite E. cbn [rbind].
      rewrite dw_check. eexists. split; [reflexivity|]. constructor; [split; [left|]; auto|]. constructor; [split; [right; left; reflexivity|apply CB]|]. constructor.
    - intros id wd t dt HI _. destruct HI as [<-|[<-|[]]].
      + exists wd, (ascalar dt). repeat split; auto.
      + destruct (dw_gives_can wd t dt) as (g' & z & E & Cc). exists g', z. auto.
    - intros t x. destruct (LET x) as (y & E & _). eauto.
    - unfold no_info_next. eauto.
    - unfold no_info_end. eauto. }
  destruct (tgauss_run L HL ig' w (vshape ++ [paths]) TI dw_inc (bget x0) al ka bb) with
    (O := fun ix jx => if list_eq_dec Nat.eq_dec ix (pop2 jx) then 1 else 0) (pace_fn := pace_fn) (fuel := fuel) (inf := inf) (timeline := timeline) (t0 := t0) (cw := cw) (d := d)
    as (R1 & _ & gr & kk & R3 & _ & R4); auto.
  - intros u t t' x u' x' E. destruct (HA t x) as (a & EA & CA & Ha).
    edestruct (dw_next_ok Rminus ig' dw a (b t) u t t' x u' x' eq_refl eq_refl) as (z & EZ & HN); [|exact E|].
    { cbn [ig_A ig']. unfold sde_A. cbn [ig_w ig']. rewrite EA. cbn [rbind]. apply dw_check. }
    unfold dw_inc. rewrite EZ. cbn [fst snd]. split; auto. intros ix HI. rewrite HN by exact HI. rewrite Ha by auto. unfold bb. cbn [nadd nmul nzero Num_R]. ring.
  - intros t x EI ix HI. cbn [ig_init ig'] in EI. unfold sde_init in EI. rewrite assign_can in EI by auto. injection EI as <-. cbn [ig_log ig']. reflexivity.
  - intros t x y EL ix HI. cbn [ig_let ig'] in EL. destruct (LET x) as (y' & EY & HY). rewrite EY in EL. injection EL as <-. rewrite HY by auto. rewrite W, rsum_factors by auto. reflexivity.
  - intros. apply inc_step; auto.
  - split; [exact R1|]. exists gr, kk. split; [exact R3|]. destruct HL as [HE _].
    eapply gaussian_ext; [apply HE|exact R4|reflexivity|..].
    + intros [i ix] Ha. apply in_prod_iff in Ha. destruct Ha as [_ Hix]. apply in_ndindex in Hix. cbn [fst snd]. rewrite W. apply (rsum_factors (fun jx => tmean gr (bget x0) (at_n al gr) (at_n ka gr) jx (kk i))). exact Hix.
    + intros [i ix] [j jx] Ha Hc. apply in_prod_iff in Ha. destruct Ha as [_ Hix]. apply in_ndindex in Hix. apply in_prod_iff in Hc. destruct Hc as [_ Hjx]. apply in_ndindex in Hjx. cbn [fst snd].
      set (cc := fun p q => tcov gr (cw_n gr) (at_n ka gr) (at_n bb gr) p q (List.length gr - 1)).
      change (rsum (fun ax => rsum (fun kx => (if list_eq_dec Nat.eq_dec ix (pop2 ax) then 1 else 0) * (if list_eq_dec Nat.eq_dec jx (pop2 kx) then 1 else 0) * cc (kk i, ax) (kk j, kx)) (ndindex w)) (ndindex w) =
        rsum (fun f => rsum (fun f' => cc (kk i, ins2 f ix) (kk j, ins2 f' jx)) (seq 0 F)) (seq 0 F)).
      rewrite (rsum_ext _ (fun ax => (if list_eq_dec Nat.eq_dec ix (pop2 ax) then 1 else 0) * rsum (fun f' => cc (kk i, ax) (kk j, ins2 f' jx)) (seq 0 F))).
      * rewrite W. apply (rsum_factors (fun ax => rsum (fun f' => cc (kk i, ax) (kk j, ins2 f' jx)) (seq 0 F))). auto.
      * intros ax _. rewrite <- (rsum_factors (fun kx => cc (kk i, ax) (kk j, kx)) jx vshape F paths Hjx), <- W, <- rsum_scal. apply rsum_ext. intros kx _. ring.
Qed.
End Factors.
End Processes.
