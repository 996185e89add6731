(** Lemmas on the law of the increments of Wiener sources with time dependent correlations, and of antithetic ones. *)
From Coq Require Import String List Arith Bool ZArith Reals Lra Lia Sorted.
From Coquelicot Require Import Coquelicot.
From Verif Require Import Base BaseOrd BaseNum BaseArr M_paths S_paths S_run L_ord L_paths8
  M_process M_source S_source M_sde S_sde L_sde L_sde2 L_sde3 M_presets S_presets L_presets M_integrate S_integrate P_source P_source2 P_source4 S_true2 S_euler L_euler L_euler2
  BaseNd BaseIdx S_process L_nd L_pack L_process P_source3 M_rv S_rv M_analytical S_analytical M_anti S_law P_chf L_law L_law2 L_law4 L_law5 S_gval L_gval L_gval2 L_gval3 L_gval4 S_tval L_tval L_tval2.
Import ListNotations.
Local Open Scope R_scope.

Section Source.
Context {G : Type}.
Variable L : nat -> (G -> R) -> R.
Hypothesis HL : is_law L.
Variables (normal : list nat -> G -> res (arr R) * G) (mvnormal : arr R -> list nat -> G -> res (arr R) * G).
Hypothesis N_ok : normal_ok normal.
Hypothesis M_ok : mvnormal_ok mvnormal.
Variables (vshape : list nat) (paths : nat) (c : R -> nat -> nat -> R).
Let w := (vshape ++ [paths])%list.
Hypothesis N_law : normal_law L normal w.
Hypothesis M_law : forall t v M, vshape = (v ++ [M])%list -> mvnormal_law L mvnormal M (c t) (v ++ [paths]).

Definition kind_at (p : M_source.param R) : Prop :=
  (p = PNone /\ forall t i j, c t i j = if Nat.eq_dec i j then 1 else 0) \/
  exists v M, vshape = (v ++ [M])%list /\ forall t, exists a, intensity p t = Ok a /\ is_matrix M a /\
    forall i j, (i < M)%nat -> (j < M)%nat -> c t i j = entry a i j.
(** a call draws multivariate normal variates, with the matrix at the middle of the interval *)
Lemma mv_value p v M a g t dt : (forall t, exists a, intensity p t = Ok a /\ is_matrix M a) -> intensity p (t + dt/2) = Ok a ->
  exists z g' dz, mvnormal (plain a) (v ++ [paths]) g = (Ok z, g') /\
    wiener_call normal mvnormal paths (v ++ [M]) p (ascalar t) (ascalar dt) g = (Ok dz, g') /\
    shp dz = (v ++ [M; paths])%list /\
    forall r m j, inb v r -> (m < M)%nat -> (j < paths)%nat -> dat dz (r ++ [m; j])%list = dat z (r ++ [j; m])%list * sqrt (Rabs dt).
Proof using M_ok.
  intros HA EA.
  assert (V : forall f, param_call p = Some f -> (forall t, f t = intensity p t) -> exists z g' dz, mvnormal (plain a) (v ++ [paths]) g = (Ok z, g') /\
    wiener_call normal mvnormal paths (v ++ [M]) p (ascalar t) (ascalar dt) g = (Ok dz, g') /\ shp dz = (v ++ [M; paths])%list /\
    forall r m j, inb v r -> (m < M)%nat -> (j < paths)%nat -> dat dz (r ++ [m; j])%list = dat z (r ++ [j; m])%list * sqrt (Rabs dt)).
  { intros f PC EF. destruct (C27_variable normal mvnormal paths v M p f (ascalar t) (ascalar dt) g [] M_ok eq_refl PC) as (zs & g' & dz & TH & E & S & H).
    - intros ix _. rewrite EF. apply HA.
    - cbn [ndindex] in TH. inversion TH as [|? ? ? z g1 ? ? E1 T1]; subst. inversion T1; subst.
      change (middle (ascalar t) (ascalar dt) []) with (t + dt/2) in E1. rewrite EF, EA in E1.
      exists z, g', dz. split; [exact E1|]. split; [exact E|]. split; [exact S|]. intros r m j Hr Hm Hj. exact (H [] z r m j (or_introl eq_refl) Hr Hm Hj). }
  destruct p as [|b|f sh|pr].
  - cbn in EA. discriminate.
  - cbn in EA. injection EA as ->. destruct (HA 0) as (a' & Ea & Ha). cbn in Ea. injection Ea as <-.
    destruct (C27_constant normal mvnormal paths v M a (ascalar t) (ascalar dt) g [] M_ok eq_refl Ha) as (z & g' & dz & EN & D & S & H).
    exists z, g', dz. split; [exact EN|]. split; [exact D|]. split; [exact S|]. intros r m j Hr Hm Hj. exact (H [] r m j ltac:(constructor) Hr Hm Hj).
  - apply (V f); auto.
  - apply (V (fun t => Ok (interp pr None (ascalar t)))); auto.
Qed.
Lemma kind_at_value p g t dt : kind_at p -> exists g' z, at_step (wiener_call normal mvnormal paths vshape p) g t dt = Ok (g', z) /\ shp z = w.
Proof using N_ok M_ok.
  intros [[-> _]|(v & M & EV & HA)].
  - destruct (C27_uncorrelated normal mvnormal paths vshape (ascalar t) (ascalar dt) g [] N_ok eq_refl) as (z & g' & dz & _ & D & S & _).
    exists g', dz. unfold at_step. rewrite D. auto.
  - destruct (HA (t + dt/2)) as (a & EA & Ha & _). destruct (mv_value p v M a g t dt) as (z & g' & dz & _ & D & S & _); auto.
    { intro t'. destruct (HA t') as (a' & ? & ? & _). eauto. }
    exists g', dz. unfold at_step. rewrite EV, D. split; [reflexivity|]. unfold w. rewrite S, EV, <- app_assoc. reflexivity.
Qed.
Lemma em_kind_at p u t dt D Psi z : kind_at p -> em L D Psi z ->
  em L (S D) (step_of (at_step (wiener_call normal mvnormal paths vshape p)) w u t dt Psi)
     (cexp (RtoC (Rabs dt/2) * qsum (entry_corr (c (t + dt/2))) (ndindex w) u)%C * z)%C.
Proof.
  intros [[-> Hc]|(v & M & EV & HA)] H.
  - rewrite qsum_id by auto. rewrite <- csum_scal, cexp_csum. apply em_dw; auto.
  - destruct (HA (t + dt/2)) as (a & EA & Ha & Hc). set (ct := c (t + dt/2)) in *.
    assert (HA' : forall t, exists a, intensity p t = Ok a /\ is_matrix M a) by (intro t'; destruct (HA t') as (a' & ? & ? & _); eauto).
    set (k := sqrt (Rabs dt)). set (u' := fun ix => (RtoC k * u (swp ix))%C).
    assert (W : w = (v ++ [M; paths])%list) by (unfold w; rewrite EV, <- app_assoc; reflexivity).
    intros d c0 Hd. destruct d as [|d]; [lia|].
    destruct (drop_paths_plain M a Ha) as (_ & D2 & D3).
    assert (K := M_law (t + dt/2) v M EV (plain a) D2 (fun i j Hi Hj => eq_trans (D3 i j) (eq_sym (Hc i j Hi Hj))) d
      (fun x g' => c0 * (cexp (csum (fun ix => u' ix * RtoC (dat x ix))%C (ndindex ((v ++ [paths]) ++ [M]))) * Psi g'))%C u' (c0 * z)%C). fold ct in K.
    replace (c0 * (cexp (RtoC (Rabs dt / 2) * qsum (entry_corr ct) (ndindex w) u) * z))%C with
      (cexp (RtoC (/2) * csum (fun r => qsum ct (seq 0 M) (fun i => u' (r ++ [i])%list)) (ndindex (v ++ [paths]))) * (c0 * z))%C.
    2: { rewrite W, qsum_swp. replace (RtoC (/2) * csum _ _)%C with (RtoC (Rabs dt/2) * csum (fun r => qsum ct (seq 0 M) (fun i => u (swp (r ++ [i])))) (ndindex (v ++ [paths])))%C; [ring|].
         rewrite <- !csum_scal. apply csum_ext. intros r _. unfold u'. rewrite (qsum_scal ct (seq 0 M) (fun i => u (swp (r ++ [i]))) (RtoC k)), <- RtoC_mult. unfold k. rewrite sqrt_sqrt by apply Rabs_pos.
         unfold Rdiv. rewrite RtoC_mult. ring. }
    eapply hm_ext; [exact HL| |apply K; intros x _].
    + intro g. unfold step_of, after. destruct (mv_value p v M a g t dt HA' EA) as (zz & g' & dz & EN & Dz & S & Hz).
      rewrite EN. unfold at_step. rewrite EV, Dz. do 3 f_equal. rewrite W, csum_swp.
      replace ((v ++ [paths]) ++ [M])%list with (v ++ [paths; M])%list by (rewrite <- app_assoc; reflexivity).
      rewrite (csum_nd_app _ [paths; M]), (csum_nd_app _ [paths]). apply csum_ext. intros r Hr. rewrite nd2_sum, csum_nd_1. apply csum_ext. intros j Hj. apply csum_ext. intros m Hm.
      apply in_ndindex in Hr. apply in_seq in Hj. apply in_seq in Hm.
      unfold u'. rewrite <- app_assoc. cbn [app]. rewrite swp_snoc. rewrite bget_self.
      * rewrite (Hz r m j Hr ltac:(lia) ltac:(lia)). fold k. rewrite RtoC_mult. ring.
      * rewrite S. apply inb_app; auto. repeat constructor; lia.
    + replace (cexp (csum (fun ix => u' ix * RtoC (dat x ix))%C (ndindex ((v ++ [paths]) ++ [M]))) * (c0 * z))%C with
        (c0 * cexp (csum (fun ix => u' ix * RtoC (dat x ix)) (ndindex ((v ++ [paths]) ++ [M]))) * z)%C by ring.
      eapply hm_ext; [exact HL| |apply H; lia]. intro g. cbv beta. ring.
Qed.

Lemma input_intensity z t : input_at z t = intensity (variable_param_setup z) t.
Proof. destruct z; reflexivity. Qed.
Lemma source_kind_in corr rho s : correlated_at corr rho vshape c -> wiener_source normal mvnormal corr rho paths vshape = Ok s ->
  exists p, s = wiener_call normal mvnormal paths vshape p /\
    ((corr = INone /\ rho = INone /\ p = PNone /\ forall t i j, c t i j = if Nat.eq_dec i j then 1 else 0) \/
     ((corr <> INone \/ rho <> INone) /\ exists v M, vshape = (v ++ [M])%list /\ forall t, exists a, intensity p t = Ok a /\ is_matrix M a /\
       forall i j, (i < M)%nat -> (j < M)%nat -> c t i j = entry a i j)).
Proof using.
  clear N_law M_law. intros HC HS. unfold wiener_source in HS. destruct HC as [(-> & -> & HC)|[(v & M & EV & HC)|(v & n & -> & EV & HC)]].
  - rewrite wiener_new_none in HS. cbn [rbind] in HS. injection HS as <-. exists PNone. split; [reflexivity|]. left. auto.
  - assert (NN : corr <> INone) by (intros ->; destruct (HC 0) as (a & E & _); discriminate).
    destruct (wiener_new vshape corr rho) as [p|e] eqn:E; [|discriminate]. cbn [rbind] in HS. injection HS as <-. exists p. split; [reflexivity|]. right. split; [auto|].
    destruct (C29_corr vshape corr rho NN) as (_ & X & _). rewrite (X _ E). exists v, M. split; [exact EV|]. intro t. destruct (HC t) as (a & EA & Ha & Hc).
    exists a. rewrite <- input_intensity. auto.
  - assert (NN : rho <> INone) by (intros ->; destruct (HC 0) as (a & E & _); discriminate).
    destruct (wiener_new vshape INone rho) as [p|e] eqn:E; [|discriminate]. cbn [rbind] in HS. injection HS as <-. exists p. split; [reflexivity|]. right. split; [auto|].
    exists v, (2*n)%nat. split; [exact EV|]. intro t. destruct (HC t) as (a & EA & Ha & Hc). destruct (C28_matrix n a Ha) as (b & B1 & B2 & B3).
    exists b. split; [|split; [left; exact B2|]].
    + assert (X : exists p', get_corr_matrix INone rho = Ok p' /\ p = p').
      { unfold wiener_new in E. destruct (get_corr_matrix INone rho) as [p'|]; [|discriminate]. cbn [rbind] in E. exists p'. split; [reflexivity|].
        destruct p' eqn:EP; destruct vshape as [|x vs]; try congruence;
        match type of E with (match ?s with _ => _ end) = _ => destruct s; [destruct (_ && _)|] | (if ?s then _ else _) = _ => destruct s end; congruence. }
      destruct X as (p' & X & ->). clear E. unfold get_corr_matrix in X. rewrite input_intensity in EA.
      destruct rho as [|r|f|pr]; [contradiction|..]; cbn [variable_param_setup intensity] in *; destruct (negb _); try discriminate; cbn [param_call] in X.
      * injection EA as ->. rewrite B1 in X. cbn [rbind] in X. injection X as <-. reflexivity.
      * injection X as <-. cbn [intensity]. rewrite EA. exact B1.
      * injection X as <-. cbn [intensity]. injection EA as <-. exact B1.
    + intros i j Hi Hj. rewrite Hc by auto. unfold entry. rewrite B2, B3 by auto.
      destruct (Nat.eq_dec i j), (Nat.eqb_spec i j); try lia; auto. destruct (Nat.eq_dec (i + n) j), (Nat.eqb_spec j (n + i)); try lia; auto. destruct (Nat.eq_dec (j + n) i), (Nat.eqb_spec i (n + j)); try lia; auto.
Qed.
Lemma source_kind_at corr rho s : correlated_at corr rho vshape c -> wiener_source normal mvnormal corr rho paths vshape = Ok s ->
  exists p, s = wiener_call normal mvnormal paths vshape p /\ kind_at p.
Proof using.
  intros HC HS. destruct (source_kind_in corr rho s HC HS) as (p & E & K). exists p. split; [exact E|]. unfold kind_at. tauto.
Qed.
End Source.
