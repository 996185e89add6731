(** Properties of the sources given to an SDE or to a compound Poisson source: C67. *)
From Coq Require Import String List Arith Bool Lia ZArith Reals Lra Permutation.
From Verif Require Import Base BaseOrd BaseNum BaseArr BaseNd BaseIdx M_paths S_paths M_process M_source S_mc S_process S_source L_nd L_process L_process2 L_source
  P_source P_source2 P_source3 M_sde S_sde L_sde M_presets M_integrate S_integrate P_sde.
Import ListNotations.
Local Open Scope R_scope.

Lemma canr_forall a : forall w, canr a w = true <-> exists suf pre, w = suf ++ pre /\ Forall2 (fun x y => x = y \/ x = 1%nat) a suf.
Proof.
  induction a as [|x a IH]; intros w.
  - split; [intros _; exists [], w; split; [reflexivity|constructor]|auto].
  - destruct w as [|y w]; cbn [canr].
    + split; [discriminate|]. intros (suf & pre & E & F). inversion F; subst. discriminate.
    + rewrite andb_true_iff, orb_true_iff, !Nat.eqb_eq, IH. split.
      * intros [H (suf & pre & -> & F)]. exists (y :: suf), pre. split; [reflexivity|constructor; auto].
      * intros (suf & pre & E & F). inversion F as [|? z ? suf' H F']; subst. injection E as -> ->. split; [exact H|]. eauto.
Qed.
Lemma Forall2_rev' {A B} (P : A -> B -> Prop) l l' : Forall2 P l l' -> Forall2 P (rev l) (rev l').
Proof. induction 1; simpl; [constructor|]. apply Forall2_app; [auto|]. constructor; [auto|constructor]. Qed.
Lemma can_broadcasts a w : can a w = true <-> broadcasts a w.
Proof.
  unfold can, broadcasts. rewrite canr_forall. split.
  - intros (suf & pre & E & F). exists (rev pre), (rev suf). split.
    + rewrite <- (rev_involutive w), E, rev_app_distr. reflexivity.
    + apply Forall2_rev' in F. rewrite rev_involutive in F. exact F.
  - intros (pre & suf & -> & F). exists (rev suf), (rev pre). split; [apply rev_app_distr|apply Forall2_rev'; auto].
Qed.
Lemma broadcasts_snoc a w n : broadcasts a w -> broadcasts (a ++ [n]) (w ++ [n]).
Proof. intros (pre & suf & -> & F). exists pre, (suf ++ [n]). split; [symmetry; apply app_assoc|]. apply Forall2_app; [exact F|]. constructor; [auto|constructor]. Qed.
Lemma broadcasts_trans a b c : broadcasts a b -> broadcasts b c -> broadcasts a c.
Proof. rewrite <- !can_broadcasts. apply can_trans. Qed.
Lemma broadcasts_refl a : broadcasts a a.
Proof. apply can_broadcasts, can_refl. Qed.
Lemma broadcasts_prefix p a w : broadcasts a w -> broadcasts a (p ++ w).
Proof. intros (pre & suf & -> & F). exists (p ++ pre), suf. split; [apply app_assoc|exact F]. Qed.

(** *** objects *)
(** accepted if and only if they have the number of paths and a shape of values that broadcasts *)
Theorem C67_accepted {S} (attrs : option (nat * list nat)) (s : S) new paths vshape :
  (forall s', source_setup (GObject attrs s) new paths vshape = Ok s' <-> s' = s /\ exists v, attrs = Some (paths, v) /\ broadcasts v vshape) /\
  (forall e, source_setup (GObject attrs s) new paths vshape = Err e -> e = ValueError).
Proof.
  unfold source_setup, check_source. split.
  - intro s'. destruct attrs as [[n v]|].
    + destruct (Nat.eqb_spec n paths) as [->|N]; cbn [andb].
      * destruct (can v vshape) eqn:C; cbn [rbind].
        -- split; [intro H; injection H as <-; split; auto; exists v; split; auto; apply can_broadcasts; auto|intros [-> _]; auto].
        -- split; [discriminate|]. intros (_ & v' & E & B). injection E as <-. apply can_broadcasts in B. congruence.
      * split; [discriminate|]. intros (_ & v' & E & _). injection E as -> _. contradiction.
    + split; [discriminate|]. intros (_ & v' & E & _). discriminate.
  - intros e H. destruct attrs as [[n v]|]; [destruct (_ && _)|]; cbn [rbind] in H; congruence.
Qed.
(** and then they can be used in place of a source with exactly the shape asked for *)
Theorem C67_fits {V A G} (s s' : src (V := V) (G := G) (arr A)) n v new paths vshape :
  source_setup (GObject (Some (n, v)) s) new paths vshape = Ok s' -> complies s n v -> complies s' paths vshape.
Proof.
  intros H C. apply (proj1 (C67_accepted _ _ _ _ _)) in H. destruct H as (-> & v' & E & B). injection E as -> ->.
  intros t dt g. destruct (C t dt g) as (z & g' & Z & F). exists z, g'. split; [exact Z|]. exact (broadcasts_trans _ _ _ F (broadcasts_snoc _ _ paths B)).
Qed.

(** *** sources made by the SDE *)
Section Made.
Context {G : Type}.
Variables (normal : list nat -> G -> res (arr R) * G) (mvnormal : arr R -> list nat -> G -> res (arr R) * G)
          (poisson : arr R -> list nat -> G -> res (arr Z) * G) (rvs : R -> nat -> nat -> G -> res (arr R) * G).
Hypothesis N_ok : normal_ok normal.
Hypothesis M_ok : mvnormal_ok mvnormal.
Hypothesis P_ok : poisson_ok poisson.
Hypothesis R_ok : forall tm m j g, exists y g', rvs tm m j g = (Ok y, g') /\ shp y = [m; j].

Lemma intensity_call c t : intensity c t = match param_call c, c with Some f, _ => f t | None, PArr a => Ok a | None, _ => Err TypeError end.
Proof. destruct c; reflexivity. Qed.
(** nothing is given, and the correlations are correlation matrices *)
Theorem C67_wiener corr rho c paths wshape : wiener_new wshape corr rho = Ok c -> correlates wshape c ->
  exists s, source_dw normal mvnormal GNone corr rho paths wshape = Ok s /\ complies s paths wshape.
Proof using N_ok M_ok.
  intros W C. unfold source_dw, source_setup, wiener_source. rewrite W. cbn [rbind]. eexists. split; [reflexivity|]. intros t dt g.
  destruct C as [->|(v & M & -> & C)].
  - destruct (C27_uncorrelated normal mvnormal paths wshape (ascalar t) (ascalar dt) g [] N_ok eq_refl) as (z & g' & dz & _ & D & S & _). exists dz, g'. split; [exact D|]. rewrite S. apply broadcasts_refl.
  - destruct (param_call c) as [f|] eqn:PC.
    + destruct (C27_variable normal mvnormal paths v M c f (ascalar t) (ascalar dt) g [] M_ok eq_refl PC) as (zs & g' & dz & _ & D & S & _).
      * intros ix I. destruct (C (middle (ascalar t) (ascalar dt) ix)) as (m & E & IM). rewrite intensity_call, PC in E. eauto.
      * exists dz, g'. split; [exact D|]. rewrite S, <- app_assoc. apply broadcasts_refl.
    + destruct (C 0) as (m & E & IM). rewrite intensity_call, PC in E. destruct c; try discriminate. injection E as ->.
      destruct (C27_constant normal mvnormal paths v M m (ascalar t) (ascalar dt) g [] M_ok eq_refl IM) as (z & g' & dz & _ & D & S & _). exists dz, g'. split; [exact D|]. rewrite S, <- app_assoc. apply broadcasts_refl.
Qed.
(** correlations given as a function of time are looked at when they are needed *)
Theorem C67_bad_correlation c f m paths v M t dt g : param_call c = Some f -> f (t + dt/2) = Ok m -> ~ is_matrix M m ->
  wiener_call normal mvnormal paths (v ++ [M]) c (ascalar t) (ascalar dt) g = (Err ValueError, g).
Proof using.
  intros PC E NM. unfold wiener_call, broadcast2. cbn [ascalar shp bshape]. unfold dbind at 1. unfold dres at 1. cbn [bshape bshr rev option_map app].
  rewrite last_last, removelast_last. destruct c as [|a|h s|p]; try discriminate PC; rewrite PC; cbn [ndindex each shp dat];
  (unfold dbind at 1, dbind at 1, dbind at 1, dbind at 1; unfold dres at 1; change (mid_time (mkArr [] (bget (ascalar t))) (mkArr [] (bget (ascalar dt))) []) with (t + dt/2); rewrite E;
   unfold drop_paths, dbind, dres, multivariate_normal, dfail;
   destruct (shp m) as [|x [|y [|z [|u q]]]] eqn:Sm; cbv beta iota;
   try (rewrite Sm; destruct (list_eq_dec Nat.eq_dec _ _) as [Q|Q]; [|reflexivity]; try discriminate Q; exfalso; apply NM; left; congruence);
   destruct (Nat.eqb_spec z 1) as [->|Nz]; [|reflexivity]; cbn [shp]; destruct (list_eq_dec Nat.eq_dec _ _) as [Q|Q]; [|reflexivity]; exfalso; apply NM; right; congruence).
Qed.
(** intensities that do not fit are refused, as far as their shape is known *)
Theorem C67_intensity (lam : input R) paths vshape :
  ((exists l, poisson_new paths vshape lam = Ok l) <-> forall s, input_shape lam = Some s -> broadcasts s (vshape ++ [paths])) /\
  (forall l, poisson_new paths vshape lam = Ok l -> l = variable_param_setup lam) /\
  (forall e, poisson_new paths vshape lam = Err e -> e = ValueError).
Proof using.
  unfold poisson_new. cbv zeta. rewrite setup_shape. destruct (input_shape lam) as [s|]; cbn [checked].
  - destruct (can s (vshape ++ [paths])) eqn:C.
    + apply can_broadcasts in C. split; [|split; [congruence|discriminate]]. split; [intros _ s' E; injection E as <-; exact C|eauto].
    + split; [|split; [discriminate|congruence]]. split; [intros [l E]; discriminate|]. intro H. specialize (H s eq_refl). apply can_broadcasts in H. congruence.
  - split; [|split; [congruence|discriminate]]. split; [intros _ s' E; discriminate|eauto].
Qed.
Lemma poisson_complies l paths wshape t dt w g : intense paths wshape l -> bshape (shp t) (shp dt) = Some w ->
  exists n g', poisson_call poisson paths wshape l t dt g = (Ok n, g') /\ shp n = w ++ wshape ++ [paths].
Proof using P_ok.
  intros H B. destruct (C26_poisson_succeeds poisson paths wshape l t dt g w P_ok B) as (n & g' & E).
  - intros ix I. destruct (H (middle t dt ix)) as (L & E & S & P). exists L. split; [exact E|]. split; [apply can_broadcasts; exact S|exact P].
  - exists n, g'. split; [exact E|]. exact (proj1 (C26_poisson poisson paths wshape l t dt g w n g' P_ok B E)).
Qed.
Theorem C67_poisson lam l paths wshape : poisson_new paths wshape lam = Ok l -> intense paths wshape l ->
  exists s, source_dn poisson GNone lam paths wshape = Ok s /\ complies s paths wshape.
Proof using P_ok.
  intros W C. unfold source_dn, source_setup, poisson_source. rewrite W. cbn [rbind]. eexists. split; [reflexivity|]. intros t dt g.
  destruct (poisson_complies l paths wshape (ascalar t) (ascalar dt) [] g C eq_refl) as (n & g' & E & S). exists n, g'. split; [exact E|]. rewrite S. apply broadcasts_refl.
Qed.
(** compound Poisson sources: with a source of counts of their own, or with one given that has exactly their shape *)
Theorem C67_cpoisson lam l paths wshape : poisson_new paths wshape lam = Ok l -> intense paths wshape l -> ndindex (wshape ++ [paths]) <> [] ->
  exists s, source_dj poisson rvs GNone GNone lam paths wshape = Ok s /\ complies s paths wshape.
Proof using P_ok R_ok.
  intros W C NE. unfold source_dj, source_setup, cpoisson_source, source_setup, poisson_source. rewrite W. cbn [rbind]. eexists. split; [reflexivity|]. intros t dt g.
  assert (RV : rvs_ok rvs). { intros tm m j g0 y g1 E. destruct (R_ok tm m j g0) as (y' & g2 & E' & S). rewrite E' in E. injection E as <- _. exact S. }
  destruct (poisson_complies l paths wshape (mkArr [] (bget (ascalar t))) (mkArr [] (bget (ascalar dt))) [] g C eq_refl) as (n0 & g0 & E0 & S0).
  destruct (C31_succeeds rvs (poisson_call poisson paths wshape l) paths wshape (ascalar t) (ascalar dt) [] g eq_refl) as (dz & n & ys & g' & E); eauto.
  - intros tm m j g1. destruct (R_ok tm m j g1) as (y & g2 & Y & _). eauto.
  - exists dz, g'. split; [unfold dbind; rewrite E; reflexivity|].
    destruct (C31_jumps rvs RV _ _ _ (ascalar t) (ascalar dt) [] _ _ _ _ _ eq_refl E) as [[g1 N] H]. rewrite E0 in N. injection N as <- <-. destruct (H S0) as [Sd _]. rewrite Sd. apply broadcasts_refl.
Qed.

(** *** integration with the sources so set up *)
Variable zval : Z -> R.
Lemma at_step_total (s : src (V := R) (G := G) (arr R)) paths wshape g t dt : complies s paths wshape ->
  exists g' z, at_step s g t dt = Ok (g', z) /\ can (shp z) (wshape ++ [paths]) = true.
Proof using. intro C. destruct (C t dt g) as (z & g' & E & B). exists g', z. unfold at_step. rewrite E. split; [reflexivity|apply can_broadcasts; exact B]. Qed.
Lemma given_complies {A} (z : given_source (src (V := R) (G := G) (arr A))) new paths wshape : given_fits z paths wshape ->
  exists s, source_setup z new paths wshape = Ok s /\ complies s paths wshape.
Proof using.
  intros [(v & s & -> & B & C)|(new' & s & -> & E & C)]; [|exists s; split; [exact E|exact C]]. assert (E : source_setup (GObject (Some (paths, v)) s) new paths wshape = Ok s) by (apply C67_accepted; eauto).
  exists s. split; [exact E|]. exact (C67_fits _ _ _ _ _ _ _ E C).
Qed.
Lemma setup_one_total a paths wshape id : ready a paths wshape id ->
  exists s, setup_one normal mvnormal poisson rvs zval a paths wshape id = Ok s /\
    forall g t dt, exists g' z, s g t dt = Ok (g', z) /\ can (shp z) (wshape ++ [paths]) = true.
Proof using N_ok M_ok P_ok R_ok.
  intro H. unfold setup_one.
  assert (K : forall r : res (src (V := R) (G := G) (arr R)), (exists s, r = Ok s /\ complies s paths wshape) ->
    exists s, rbind r (fun s => Ok (at_step s)) = Ok s /\ forall g t dt, exists g' z, s g t dt = Ok (g', z) /\ can (shp z) (wshape ++ [paths]) = true).
  { intros r (s & -> & C). cbn [rbind]. eexists. split; [reflexivity|]. intros. apply at_step_total; auto. }
  assert (KZ : forall r : res (src (V := R) (G := G) (arr Z)), (exists s, r = Ok s /\ complies s paths wshape) ->
    exists s, rbind r (fun s => Ok (at_step (fun t dt => dbind (s t dt) (fun n => dret (amap zval n))))) = Ok s /\ forall g t dt, exists g' z, s g t dt = Ok (g', z) /\ can (shp z) (wshape ++ [paths]) = true).
  { intros r (s & -> & C). cbn [rbind]. eexists. split; [reflexivity|]. intros. apply at_step_total. intros t0 dt0 g0. destruct (C t0 dt0 g0) as (z & g' & E & B). exists (amap zval z), g'. split; [unfold dbind; rewrite E; reflexivity|exact B]. }
  destruct H as [|c E W C|F|l E W C|F|l E1 E2 W C NE|F]; cbn [String.eqb Ascii.eqb Bool.eqb].
  - eexists. split; [reflexivity|]. intros g t dt. unfold source_dt. do 2 eexists. split; [reflexivity|]. apply can_nil.
  - apply K. rewrite E. eapply C67_wiener; eauto.
  - apply K. apply given_complies. exact F.
  - apply KZ. rewrite E. eapply C67_poisson; eauto.
  - apply KZ. apply given_complies. exact F.
  - apply K. rewrite E1, E2. eapply C67_cpoisson; eauto.
  - apply K. apply given_complies. exact F.
Qed.
Lemma sources_total a ids paths wshape : (forall id, In id ids -> ready a paths wshape id) ->
  exists s, sources_setup normal mvnormal poisson rvs zval a ids paths wshape = Ok s /\
    forall id g t dt, In id ids -> exists g' z, s id g t dt = Ok (g', z) /\ can (shp z) (wshape ++ [paths]) = true.
Proof using N_ok M_ok P_ok R_ok.
  intro H. unfold sources_setup.
  assert (K : exists l, mapr (fun id => rbind (setup_one normal mvnormal poisson rvs zval a paths wshape id) (fun s => Ok (id, s))) ids = Ok l /\
    forall id, In id ids -> exists s, lookup id l = Some s /\ forall g t dt, exists g' z, s g t dt = Ok (g', z) /\ can (shp z) (wshape ++ [paths]) = true).
  { induction ids as [|i ids IH]; [exists []; split; [reflexivity|intros ? []]|]. destruct IH as (l & E & L); [intros; apply H; right; auto|].
    destruct (setup_one_total a paths wshape i (H i (or_introl eq_refl))) as (s & S1 & S2). exists ((i, s) :: l). cbn [mapr]. rewrite S1. cbn [rbind]. rewrite E. split; [reflexivity|].
    intros id I. cbn [lookup]. destruct (String.eqb_spec id i) as [->|NE]; [eauto|]. destruct I as [->|I]; [contradiction|auto]. }
  destruct K as (l & -> & L). cbn [rbind]. eexists. split; [reflexivity|]. intros id g t dt I. cbv beta. destruct (L id I) as (s & -> & S). apply S.
Qed.
Lemma setup_lookup a ids paths wshape s id : sources_setup normal mvnormal poisson rvs zval a ids paths wshape = Ok s -> In id ids ->
  exists f, setup_one normal mvnormal poisson rvs zval a paths wshape id = Ok f /\ forall g t dt, s id g t dt = f g t dt.
Proof using.
  unfold sources_setup. intros E I. destruct (mapr _ ids) as [l|] eqn:M; [|discriminate]. cbn [rbind] in E. injection E as <-.
  assert (K : exists f, lookup id l = Some f /\ setup_one normal mvnormal poisson rvs zval a paths wshape id = Ok f).
  { revert l M. induction ids as [|i ids IH]; [destruct I|]. intros l M. cbn [mapr] in M. destruct (setup_one normal mvnormal poisson rvs zval a paths wshape i) as [f|] eqn:F; [|discriminate]. cbn [rbind] in M.
    destruct (mapr _ ids) as [l'|]; [|discriminate]. cbn [rbind] in M. injection M as <-. cbn [lookup]. destruct (String.eqb_spec id i) as [->|NE]; [eauto|].
    destruct I as [->|I]; [contradiction|]. apply IH; auto. }
  destruct K as (f & L & F). exists f. split; [exact F|]. intros. rewrite L. reflexivity.
Qed.
(** the jumps made for dj are as many, for each path and component, as the counts of the source for dn *)
Theorem C67_jumps a ids paths wshape s d g g' t dt z : let w := wshape ++ [paths] in
  a_dj a = GNone -> source_dn poisson (a_dn a) (a_lam a) paths wshape = Ok d -> In "dj"%string ids ->
  sources_setup normal mvnormal poisson rvs zval a ids paths wshape = Ok s -> s "dj"%string g t dt = Ok (g', z) ->
  exists n g1, d (ascalar t) (ascalar dt) g = (Ok n, g1) /\ (shp n = w -> shp z = w /\
    exists jumps : list nat -> list R, forall r, inb w r -> dat z r = IZR (nsign dt) * total (jumps r) /\
      List.length (jumps r) = Z.to_nat (nsign dt * dat n r) /\
      (jumps r <> [] -> exists m g1 y g2 k, rvs (t + dt/2) m (List.length (jumps r)) g1 = (Ok y, g2) /\ (k < m)%nat /\ jumps r = row y [k])).
Proof using R_ok.
  intros w DJ DN I E V. destruct (setup_lookup _ _ _ _ _ _ E I) as (f & F & SF). rewrite SF in V. unfold setup_one in F. cbn [String.eqb Ascii.eqb Bool.eqb] in F.
  rewrite DJ in F. unfold source_dj, source_setup at 1, cpoisson_source in F. unfold source_dn in DN. rewrite DN in F. cbn [rbind] in F. injection F as <-.
  unfold at_step in V. destruct (dbind _ _ g) as [[z0|] g0] eqn:B; [|discriminate]. injection V as <- <-. apply dbind_ok in B. destruct B as ([[z1 n] ys] & g1 & C & R). apply dret_ok in R. destruct R as [-> ->].
  assert (RV : rvs_ok rvs). { intros tm m j ga y gb Ey. destruct (R_ok tm m j ga) as (y' & gc & E' & S). rewrite E' in Ey. injection Ey as <- _. exact S. }
  destruct (C31_jumps rvs RV _ _ _ (ascalar t) (ascalar dt) [] _ _ _ _ _ eq_refl C) as [[g2 N] H]. exists n, g2. split; [exact N|]. intro SN. destruct (H SN) as (SZ & jumps & J & _). split; [exact SZ|].
  exists (jumps []). intros r Ir. destruct (J [] r ltac:(constructor) Ir) as (J1 & J2 & J3). split; [exact J1|]. split; [exact J2|]. exact J3.
Qed.
(** An equation with coefficients that broadcast, and sources among those known, that are ready: the instance can be made
    and every integration with it, on every valid timeline, returns a value. *)
Theorem C67_run a ids log sde vshape paths x0 args gi i0 pace_fn fuel g (inf : unit) (timeline : list R) p0 :
  let w := vshape ++ [paths] in
  (forall id, In id ids -> ready a paths vshape id) ->
  (forall t x, exists d, sde t (mkArr w x) (map (fun '(k, z) => (k, peval t z)) args) = Ok (RDict d) /\ Forall (fun '(id, c) => In id ids /\ broadcasts (shp c) w) d) ->
  broadcasts (shp x0) w ->
  valid_timeline timeline -> start_index (List.length timeline) i0 p0 ->
  (List.length timeline + List.length (pace_fn timeline) <= fuel)%nat ->
  exists s g' xx, sources_setup normal mvnormal poisson rvs zval a ids paths vshape = Ok s /\
    sde_call Rminus (mk_sde ids s log sde gi vshape paths x0 args) i0 pace_fn fuel (g, inf) [List.length timeline] timeline = Ok ((g', inf), xx).
Proof using N_ok M_ok P_ok R_ok.
  intros w RD SD X0 VT SI HF. destruct (sources_total a ids paths vshape RD) as (s & E & S). exists s.
  destruct (C07_run_completes Rminus (mk_sde ids s log sde gi vshape paths x0 args) (fun _ => True) i0 pace_fn fuel (g, inf) timeline p0) as ([g' []] & xx & H); auto.
  - constructor; cbn [mk_sde ig_init ig_A ig_src ig_let ig_info_next ig_info_end ig_w ig_ids].
    + intro t. unfold sde_init. fold w. rewrite assign_can by (apply can_broadcasts; exact X0). eauto.
    + intros t x. fold w. destruct (SD t x) as (d & D & F). exists d. split.
      * unfold sde_A. rewrite D. cbn [rbind check_dict]. replace (forallb (fun k => mem k ids) (M_sde.keys d)) with true; [reflexivity|]. symmetry. apply forallb_forall. intros k K. apply in_map_iff in K. destruct K as ([k' c] & <- & K).
        rewrite Forall_forall in F. specialize (F _ K). cbn in F. destruct F as [F _]. unfold mem. apply existsb_exists. exists k'. split; [exact F|apply String.eqb_refl].
      * eapply Forall_impl; [|exact F]. intros [id c] [F1 F2]. split; [exact F1|apply can_broadcasts; exact F2].
    + intros id wd t dt I _. destruct (S id wd t dt I) as (g' & z & Z & B). exists g', z. auto.
    + intros t x. unfold sde_let. rewrite assign_can by apply can_refl. eauto.
    + intros. unfold no_info_next. eauto.
    + intros. unfold no_info_end. eauto.
  - exists g', xx. split; [exact E|]. destruct inf. exact H.
Qed.
End Made.
Print Assumptions C67_accepted.
Print Assumptions C67_fits.
Print Assumptions C67_wiener.
Print Assumptions C67_bad_correlation.
Print Assumptions C67_intensity.
Print Assumptions C67_poisson.
Print Assumptions C67_cpoisson.
Print Assumptions C67_run.
Print Assumptions C67_jumps.

(** *** a source of counts given to a compound Poisson source *)
(** Its values may have fewer components than asked for, but then the counts of the paths are taken for the counts of the
    components, since the samples are assigned through a mask with the shape of the counts. *)
Definition ex_counts (t dt : arr R) (g : nat) : res (arr Z) * nat := (Ok (mkArr [3]%nat (fun ix => match ix with [0%nat] => 1%Z | _ => 0%Z end)), g).
Definition ex_ones (t : R) (m j : nat) (g : nat) : res (arr R) * nat := (Ok (mkArr [m; j] (fun _ => 1)), S g).
Definition ex_nopoisson (l : arr R) (s : list nat) (g : nat) : res (arr Z) * nat := (Err ValueError, g).
Definition ex_given : given_source (src (V := R) (G := nat) (arr Z)) := GObject (Some (3, [])%nat) ex_counts.
Lemma nsign_1 : nsign (V := R) 1 = 1%Z.
Proof. rewrite nsign_R. destruct (Rlt_dec 0 1); [reflexivity|lra]. Qed.
(** accepted, and complying with the protocol, but the jumps cannot be assigned *)
Theorem C67_dn_refuted : given_fits ex_given 3 [2]%nat /\
  exists s, cpoisson_source ex_nopoisson ex_ones ex_given INone 3 [2]%nat = Ok s /\ s (ascalar 0) (ascalar 1) 5%nat = (Err IndexError, 6%nat).
Proof.
  split; [left; exists [], ex_counts; split; [reflexivity|]; split; [exists [2]%nat, []; split; [reflexivity|constructor]|]; intros t dt g; do 2 eexists; split; [reflexivity|apply broadcasts_refl]|].
  eexists. split; [reflexivity|]. cbv -[nsign mid_time nzero none nsum Num_R zmul IZR Z.eqb Z.mul Z.of_nat Z.to_nat seq Z.max]. rewrite !nsign_1. reflexivity.
Qed.
(** with as many components as paths no error is raised: the jump of the first path is given to the first component of
    all paths, and the other components of the first path get none *)
Theorem C67_dn_wrong_refuted : given_fits ex_given 3 [3]%nat /\
  exists s dz, cpoisson_source ex_nopoisson ex_ones ex_given INone 3 [3]%nat = Ok s /\ s (ascalar 0) (ascalar 1) 5%nat = (Ok dz, 6%nat) /\ shp dz = [3; 3]%nat /\
  exists n, ex_counts (ascalar 0) (ascalar 1) 5%nat = (Ok n, 5%nat) /\
    (bget n [0; 1]%nat = 0%Z /\ dat dz [0; 1]%nat = 1) /\ (bget n [1; 0]%nat = 1%Z /\ dat dz [1; 0]%nat = 0).
Proof.
  split; [left; exists [], ex_counts; split; [reflexivity|]; split; [exists [3]%nat, []; split; [reflexivity|constructor]|]; intros t dt g; do 2 eexists; split; [reflexivity|apply broadcasts_refl]|].
  do 2 eexists. split; [reflexivity|]. split; [cbv -[nsign mid_time nzero none nsum Num_R zmul IZR Z.eqb Z.mul Z.of_nat Z.to_nat seq Z.max]; rewrite !nsign_1; reflexivity|]. split; [reflexivity|].
  eexists. split; [reflexivity|]. split; split; try reflexivity. cbn -[nmul]. lra.
Qed.
Example C67_ex {G} (normal : list nat -> G -> res (arr R) * G) mvnormal poisson rvs zval g :
  normal_ok normal -> mvnormal_ok mvnormal -> poisson_ok poisson -> (forall tm m j g, exists y g', rvs tm m j g = (Ok y, g') /\ shp y = [m; j]) ->
  let a := {| a_dw := GNone; a_corr := INone; a_rho := INone; a_dn := GNone; a_lam := IArr (ascalar 2); a_dj := GNone |} in
  let ids := ["dt"; "dw"; "dj"]%string in
  exists s g' xx, sources_setup normal mvnormal poisson rvs zval a ids 3 [2]%nat = Ok s /\
    sde_call Rminus (mk_sde ids s false (fun t x _ => Ok (RDict [("dt"%string, amap (Rmult (-1)) x); ("dw"%string, ascalar 1); ("dj"%string, vec [1; 2; 3])])) false [2]%nat 3 (ascalar 1) []) 0 (fun l => l) 6 (g, tt) [3]%nat [0; 1; 3] = Ok ((g', tt), xx).
Proof.
  intros N M P Rv a ids.
  assert (I : intense 3 [2]%nat (variable_param_setup (a_lam a))).
  { intro t. exists (ascalar 2). split; [reflexivity|]. split; [exists [2; 3]%nat, []; split; [reflexivity|constructor]|]. intros r _. cbn. lra. }
  apply (C67_run normal mvnormal poisson rvs N M P Rv zval a ids false _ [2]%nat 3 (ascalar 1) [] false 0%Z (fun l => l) 6 g tt [0; 1; 3] 0%nat).
  - intros id [<-|[<-|[<-|[]]]]; [apply r_dt|apply (r_dw a 3 [2]%nat PNone); try reflexivity; left; reflexivity|apply (r_dj a 3 [2]%nat (variable_param_setup (a_lam a))); try reflexivity; [exact I|discriminate]].
  - intros t x. eexists. split; [reflexivity|]. constructor; [split; [cbn; auto|]|constructor; [split; [cbn; auto|]|constructor; [split; [cbn; auto|]|constructor]]].
    + apply broadcasts_refl.
    + exists [2; 3]%nat, []; split; [reflexivity|constructor].
    + exists [2]%nat, [3]%nat; split; [reflexivity|]. constructor; [auto|constructor].
  - exists [2; 3]%nat, []; split; [reflexivity|constructor].
  - split; [discriminate|]. split; [repeat constructor; apply teqb_R_true; reflexivity|]. repeat constructor; first [apply tltb_R_true; lra|apply teqb_R_true; reflexivity].
  - left. split; [cbn; lia|reflexivity].
  - cbn. lia.
Qed.
Print Assumptions C67_dn_refuted.
Print Assumptions C67_dn_wrong_refuted.
