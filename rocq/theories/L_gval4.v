(** Lemmas on integrations of linear equations with Gaussian increments: processes of the package. *)
From Coq Require Import String List Arith Bool ZArith Reals Lra Lia Sorted.
From Coquelicot Require Import Coquelicot.
From Verif Require Import Base BaseOrd BaseNum BaseArr M_paths S_paths S_run L_ord L_paths8
  M_process M_source S_source M_sde S_sde L_sde L_sde2 L_sde3 M_presets S_presets L_presets M_integrate S_integrate P_source P_source4 S_true2 S_euler L_euler L_euler2
  BaseNd BaseIdx S_process L_nd L_pack L_process P_source3 M_rv S_rv M_analytical S_analytical S_law P_chf L_law L_law2 L_law4 L_law5 S_gval L_gval L_gval2 L_gval3.
Import ListNotations.
Local Open Scope R_scope.

Lemma rsum_swp (f : list nat -> R) v M n :
  rsum f (ndindex (v ++ [M; n])) = rsum (fun r => rsum (fun m => f (swp (r ++ [m]))) (seq 0 M)) (ndindex (v ++ [n])).
Proof.
  apply RtoC_inj. rewrite !rsum_csum, csum_swp. apply csum_ext. intros r _. rewrite rsum_csum. reflexivity.
Qed.
Lemma rsum_self (h : list nat -> R) ix w : inb w ix -> rsum (fun jx => (if list_eq_dec Nat.eq_dec ix jx then 1 else 0) * h jx) (ndindex w) = h ix.
Proof.
  intro HI. rewrite (rsum_ext _ (fun jx => if list_eq_dec Nat.eq_dec ix jx then h jx else 0)) by (intros jx _; destruct (list_eq_dec Nat.eq_dec ix jx); ring).
  apply rsum_one; [apply NoDup_ndindex|apply in_ndindex; auto].
Qed.
Lemma rsum_factors (h : list nat -> R) ix v F n : inb (v ++ [n]) ix ->
  rsum (fun jx => (if list_eq_dec Nat.eq_dec ix (pop2 jx) then 1 else 0) * h jx) (ndindex (v ++ [F; n])) = rsum (fun f => h (ins2 f ix)) (seq 0 F).
Proof.
  intro HI. rewrite rsum_swp.
  rewrite (rsum_ext _ (fun r => if list_eq_dec Nat.eq_dec ix r then rsum (fun f => h (ins2 f r)) (seq 0 F) else 0)).
  - apply (rsum_one (list_eq_dec Nat.eq_dec) (fun r => rsum (fun f => h (ins2 f r)) (seq 0 F))); [apply NoDup_ndindex|apply in_ndindex; auto].
  - intros r Hr. apply in_ndindex in Hr. apply inb_snoc in Hr. destruct Hr as (a & b & -> & _ & _).
    destruct (list_eq_dec Nat.eq_dec ix (a ++ [b])) as [E|E].
    + apply rsum_ext. intros m _. rewrite <- app_assoc. cbn [app]. rewrite swp_snoc, pop2_snoc, ins2_snoc. destruct (list_eq_dec Nat.eq_dec ix (a ++ [b])); [ring|contradiction].
    + apply rsum_zero. intros m _. rewrite <- app_assoc. cbn [app]. rewrite swp_snoc, pop2_snoc. destruct (list_eq_dec Nat.eq_dec ix (a ++ [b])); [contradiction|ring].
Qed.

Section Processes.
Context {G I : Type}.
Variable L : nat -> (G -> R) -> R.
Hypothesis HL : is_law L.
Variables (normal : list nat -> G -> res (arr R) * G) (mvnormal : arr R -> list nat -> G -> res (arr R) * G).
Hypothesis N_ok : normal_ok normal.
Hypothesis M_ok : mvnormal_ok mvnormal.
Variables (wshape : list nat) (paths : nat) (c : nat -> nat -> R).
Let w := (wshape ++ [paths])%list.
Hypothesis N_law : normal_law L normal w.
Hypothesis M_law : forall v M, wshape = (v ++ [M])%list -> mvnormal_law L mvnormal M c (v ++ [paths]).
Variables (corr rho : input R) (s : src (V := R) (G := G) (arr R)).
Hypothesis HC : correlated corr rho wshape c.
Hypothesis HS : source_dw normal mvnormal GNone corr rho paths wshape = Ok s.
Let dw : G -> R -> R -> res (G * arr R) := at_step s.

Definition src_inc (g : G) (t dt : R) : G * (list nat -> R) := match dw g t dt with Ok (g', z) => (g', bget z) | Err _ => (g, fun _ => 0) end.
Lemma dw_gives g t dt : exists g' z, dw g t dt = Ok (g', z) /\ can (shp z) w = true.
Proof using HC HS M_ok N_ok N_law M_law. destruct (source_kind L normal mvnormal wshape paths c N_law M_law corr rho s HC HS) as (p & E & K). unfold dw. rewrite E. apply (kind_value L normal mvnormal N_ok M_ok wshape paths c N_law M_law p g t dt K). Qed.
Lemma src_step t dt u D Psi z : 0 < dt -> em L D Psi z ->
  em L (S D) (one_step src_inc w u t dt Psi) (cexp (RtoC (dt / 2) * qsum (entry_corr c) (ndindex w) u)%C * z)%C.
Proof using HC HL HS M_law M_ok N_law N_ok.
  intros Hdt H. destruct (source_kind L normal mvnormal wshape paths c N_law M_law corr rho s HC HS) as (p & E & K).
  assert (X := em_kind L HL normal mvnormal N_ok M_ok wshape paths c N_law M_law p u t dt D Psi z K H). rewrite <- E in X. rewrite Rabs_pos_eq in X by lra. fold w in X.
  eapply em_ext; [exact HL| |exact X]. intro g. unfold step_of, one_step, src_inc. fold dw. destruct (dw_gives g t dt) as (g' & y & EY & _). rewrite EY. reflexivity.
Qed.

Variables (pace_fn : list R -> list R) (fuel : nat) (inf : I) (timeline : list R) (t0 : R).
Hypothesis V0 : valid_timeline timeline.
Hypothesis N0 : nth_error timeline 0 = Some t0.
Hypothesis HF : (List.length timeline + List.length (pace_fn timeline) <= fuel)%nat.

(** one equation, with default methods *)
Section One.
Variables (sde : R -> arr R -> dict (arr R) -> res (sdeval R)) (log gi : bool) (x0 b : arr R) (args : dict (M_sde.param R R)) (al ka : list nat -> R).
Hypothesis HX : can (shp x0) w = true.
Hypothesis HD : drift_noise w sde args (fun t x ix => al ix - ka ix * x ix) b.
Lemma one_gaussian d : (List.length timeline + List.length (pace_fn timeline) <= d)%nat ->
  let run g := sde_call Rminus (mk_sde (I := I) dw_ids (dw_src dw) log sde gi wshape paths x0 args) 0 pace_fn fuel (g, inf) [List.length timeline] timeline in
  let N := List.length timeline in
  (forall g, exists s' xx, run g = Ok (s', xx)) /\
  (log = true -> forall g i ix, (i < N)%nat -> inb w ix -> 0 < value_at (run g) i ix) /\
  exists gr kk, on_grid timeline (pace_fn timeline) t0 gr kk /\
    gaussian (L d) (entries N w)
      (fun g a => let v := value_at (run g) (fst a) (snd a) in if log then ln v else v)
      (fun a => mpath gr (al (snd a)) (ka (snd a)) (if log then ln (bget x0 (snd a)) else bget x0 (snd a)) (kk (fst a)))
      (fun a a' => acov gr (entry_corr c) ka (bget b) (kk (fst a), snd a) (kk (fst a'), snd a') (List.length gr - 1)).
Proof using HC HD HF HL HS HX M_law M_ok N0 N_law N_ok V0.
  intros Hd run N. destruct HD as [CB HA]. apply can_broadcasts in CB. set (ig := mk_sde (I := I) dw_ids (dw_src dw) log sde gi wshape paths x0 args) in *.
  assert (TI : total_integ ig (fun _ => True)).
  { apply dw_total; auto.
    - intros t x. destruct (HA t x) as (a & E & Cc & _). apply can_broadcasts in Cc. exists a, b. auto.
    - intros wd t dt _. destruct (dw_gives wd t dt) as (g' & z & E & Cc). exists g', z. auto. }
  destruct (gauss_run L HL ig w w TI src_inc (fun ix => if log then ln (bget x0 ix) else bget x0 ix) al ka (bget b)) with
    (O := fun ix jx => if list_eq_dec Nat.eq_dec ix jx then 1 else 0) (pace_fn := pace_fn) (fuel := fuel) (inf := inf) (timeline := timeline) (t0 := t0) (cw := entry_corr c) (d := d)
    as (R1 & R2 & gr & kk & R3 & R4); auto.
  - intros u t t' x u' x' E. destruct (HA t x) as (a & EA & CA & Ha).
    edestruct (dw_next_ok Rminus ig dw a b u t t' x u' x' eq_refl eq_refl) as (z & EZ & HN); [|exact E|].
    { cbn [ig_A mk_sde ig]. unfold sde_A. cbn [ig_w mk_sde ig]. fold w. rewrite EA. cbn [rbind]. apply dw_check. }
    unfold src_inc. rewrite EZ. cbn [fst snd]. split; auto. intros ix HI. rewrite HN by exact HI. rewrite Ha by auto. cbn [nadd nmul nzero Num_R]. ring.
  - intros t x EI ix HI. cbn [ig_init mk_sde ig] in EI. unfold sde_init in EI. fold w in EI. rewrite assign_can in EI by auto. injection EI as <-. cbn [ig_log mk_sde ig]. reflexivity.
  - intros t x y EL ix HI. cbn [ig_let mk_sde ig] in EL. unfold sde_let in EL. fold w in EL. rewrite assign_can in EL by apply can_refl. injection EL as <-. rewrite rsum_self by auto. rewrite bget_self by auto. reflexivity.
  - intros. apply src_step; auto.
  - split; [exact R1|]. split; [exact R2|]. exists gr, kk. split; [exact R3|]. destruct HL as [HE _].
    eapply gaussian_ext; [apply HE|exact R4|reflexivity|..].
    + intros [i ix] Ha. apply in_prod_iff in Ha. destruct Ha as [_ Hix]. apply in_ndindex in Hix. cbn [fst snd]. apply (rsum_self (fun jx => mpath gr (al jx) (ka jx) (if log then ln (bget x0 jx) else bget x0 jx) (kk i))). exact Hix.
    + intros [i ix] [j jx] Ha Hc. apply in_prod_iff in Ha. destruct Ha as [_ Hix]. apply in_ndindex in Hix. apply in_prod_iff in Hc. destruct Hc as [_ Hjx]. apply in_ndindex in Hjx. cbn [fst snd].
      rewrite (rsum_ext _ (fun ax => (if list_eq_dec Nat.eq_dec ix ax then 1 else 0) * acov gr (entry_corr c) ka (bget b) (kk i, ax) (kk j, jx) (List.length gr - 1))).
      * rewrite (rsum_self (fun ax => acov gr (entry_corr c) ka (bget b) (kk i, ax) (kk j, jx) (List.length gr - 1))) by auto. reflexivity.
      * intros ax _. rewrite <- (rsum_self (fun kx => acov gr (entry_corr c) ka (bget b) (kk i, ax) (kk j, kx) (List.length gr - 1)) jx w Hjx), <- rsum_scal. apply rsum_ext. intros kx _. ring.
Qed.
End One.

(** sum of factors *)
Section Factors.
Variables (vshape : list nat) (F : nat).
Hypothesis EW : wshape = (vshape ++ [F])%list.
Variables (gi : bool) (x0 theta k sigma : arr R) (args : dict (M_sde.param R R)).
Hypothesis HX : can (shp x0) w = true.
Variables (b : arr R) (al ka : list nat -> R).
Hypothesis HD : drift_noise w ou_sde args (fun t x ix => al ix - ka ix * x ix) b.
Lemma hw_gaussian d : (List.length timeline + List.length (pace_fn timeline) <= d)%nat ->
  let run g := sde_call Rminus (hull_white_process (I := I) dw gi vshape F paths x0 args) 0 pace_fn fuel (g, inf) [List.length timeline] timeline in
  let N := List.length timeline in
  (forall g, exists s' xx, run g = Ok (s', xx)) /\
  exists gr kk, on_grid timeline (pace_fn timeline) t0 gr kk /\
    gaussian (L d) (entries N (vshape ++ [paths]))
      (fun g a => value_at (run g) (fst a) (snd a))
      (fun a => rsum (fun f => let jx := ins2 f (snd a) in mpath gr (al jx) (ka jx) (bget x0 jx) (kk (fst a))) (seq 0 F))
      (fun a a' => rsum (fun f => rsum (fun f' => acov gr (entry_corr c) ka (bget b) (kk (fst a), ins2 f (snd a)) (kk (fst a'), ins2 f' (snd a')) (List.length gr - 1)) (seq 0 F)) (seq 0 F)).
Proof using HC HD HF HL HS HX M_law M_ok N0 N_law N_ok V0 EW.
  intros Hd run N. destruct HD as [CB HA]. apply can_broadcasts in CB. set (ig := hull_white_process (I := I) dw gi vshape F paths x0 args) in *.
  assert (W : w = (vshape ++ [F; paths])%list) by (unfold w; rewrite EW, <- app_assoc; reflexivity).
  assert (SP : pop2 w = (vshape ++ [paths])%list) by (rewrite W, pop2_snoc; reflexivity).
  assert (SD : dim2 w = F) by (rewrite W, dim2_snoc; reflexivity).
  assert (EG : ig = mkInteg dw_ids (dw_src dw) (sde_A dw_ids args ou_sde) w (sde_init w x0) false (fun t x => assign (vshape ++ [paths]) (sum2 (mkArr w x))) gi
          no_info_begin no_info_next no_info_store no_info_end) by (unfold ig, hull_white_process; cbv zeta; rewrite <- W; reflexivity).
  assert (LET : forall x, exists y, assign (vshape ++ [paths]) (sum2 (mkArr w x)) = Ok y /\ forall ix, inb (vshape ++ [paths]) ix -> y ix = rsum (fun f => x (ins2 f ix)) (seq 0 F)).
  { intro x. rewrite assign_can by (unfold sum2; cbn [shp]; rewrite SP; apply can_refl). eexists. split; [reflexivity|]. intros ix HI.
    rewrite bget_self by (unfold sum2; cbn [shp]; rewrite SP; exact HI). unfold sum2. cbn [shp dat]. rewrite SD. cbn [nadd nzero Num_R].
    assert (FR : forall (f : nat -> R) l a, fold_left (fun acc k => acc + f k) l a = a + rsum f l).
    { intros f l. unfold rsum. induction l as [|x' l IH]; intro a; cbn [fold_left map fold_right]; [ring|]. rewrite IH. ring. }
    rewrite (FR (fun k => x (ins2 k ix))). ring. }
  clearbody ig. subst ig.
  match type of run with _ => match eval unfold run in run with context [sde_call _ ?i] => set (ig' := i) in run end end.
  assert (TI : total_integ ig' (fun _ => True)).
  { split; cbn.
    - intros t. unfold sde_init. rewrite assign_can by auto. eauto.
    - intros t x. destruct (HA t x) as (a & E & Cc & _). apply can_broadcasts in Cc. unfold sde_A. rewrite E. cbn [rbind].
      rewrite dw_check. eexists. split; [reflexivity|]. constructor; [split; [left|]; auto|]. constructor; [split; [right; left|]; auto|]. constructor.
    - intros id wd t dt HI _. destruct HI as [<-|[<-|[]]].
      + exists wd, (ascalar dt). repeat split; auto.
      + destruct (dw_gives wd t dt) as (g' & z & E & Cc). exists g', z. auto.
    - intros t x. destruct (LET x) as (y & E & _). eauto.
    - unfold no_info_next. eauto.
    - unfold no_info_end. eauto. }
  destruct (gauss_run L HL ig' w (vshape ++ [paths]) TI src_inc (bget x0) al ka (bget b)) with
    (O := fun ix jx => if list_eq_dec Nat.eq_dec ix (pop2 jx) then 1 else 0) (pace_fn := pace_fn) (fuel := fuel) (inf := inf) (timeline := timeline) (t0 := t0) (cw := entry_corr c) (d := d)
    as (R1 & _ & gr & kk & R3 & R4); auto.
  - intros u t t' x u' x' E. destruct (HA t x) as (a & EA & CA & Ha).
    edestruct (dw_next_ok Rminus ig' dw a b u t t' x u' x' eq_refl eq_refl) as (z & EZ & HN); [|exact E|].
    { cbn [ig_A ig']. unfold sde_A. cbn [ig_w ig']. rewrite EA. cbn [rbind]. apply dw_check. }
    unfold src_inc. rewrite EZ. cbn [fst snd]. split; auto. intros ix HI. rewrite HN by exact HI. rewrite Ha by auto. cbn [nadd nmul nzero Num_R]. ring.
  - intros t x EI ix HI. cbn [ig_init ig'] in EI. unfold sde_init in EI. rewrite assign_can in EI by auto. injection EI as <-. cbn [ig_log ig']. reflexivity.
  - intros t x y EL ix HI. cbn [ig_let ig'] in EL. destruct (LET x) as (y' & EY & HY). rewrite EY in EL. injection EL as <-. rewrite HY by auto. rewrite W, rsum_factors by auto. reflexivity.
  - intros. apply src_step; auto.
  - split; [exact R1|]. exists gr, kk. split; [exact R3|]. destruct HL as [HE _].
    eapply gaussian_ext; [apply HE|exact R4|reflexivity|..].
    + intros [i ix] Ha. apply in_prod_iff in Ha. destruct Ha as [_ Hix]. apply in_ndindex in Hix. cbn [fst snd]. rewrite W. apply (rsum_factors (fun jx => mpath gr (al jx) (ka jx) (bget x0 jx) (kk i))). exact Hix.
    + intros [i ix] [j jx] Ha Hc. apply in_prod_iff in Ha. destruct Ha as [_ Hix]. apply in_ndindex in Hix. apply in_prod_iff in Hc. destruct Hc as [_ Hjx]. apply in_ndindex in Hjx. cbn [fst snd].
      rewrite (rsum_ext _ (fun ax => (if list_eq_dec Nat.eq_dec ix (pop2 ax) then 1 else 0) * rsum (fun f' => acov gr (entry_corr c) ka (bget b) (kk i, ax) (kk j, ins2 f' jx) (List.length gr - 1)) (seq 0 F))).
      * rewrite W. apply (rsum_factors (fun ax => rsum (fun f' => acov gr (entry_corr c) ka (bget b) (kk i, ax) (kk j, ins2 f' jx) (List.length gr - 1)) (seq 0 F))). auto.
      * intros ax _. rewrite <- (rsum_factors (fun kx => acov gr (entry_corr c) ka (bget b) (kk i, ax) (kk j, kx) (List.length gr - 1)) jx vshape F paths Hjx), <- W, <- rsum_scal. apply rsum_ext. intros kx _. ring.
Qed.
End Factors.
End Processes.
