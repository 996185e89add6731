(** Lemmas on the means of functions of simulated values, for linear equations. *)
From Coq Require Import String List Arith Bool ZArith Reals Lra Lia Sorted.
From Coquelicot Require Import Coquelicot.
From Verif Require Import Base BaseOrd BaseNum BaseArr M_paths S_paths S_run L_ord L_paths8
  M_process M_source S_source M_sde S_sde L_sde L_sde2 L_sde3 M_presets S_presets L_presets L_presets2 M_integrate S_integrate P_source P_source2 P_source4 S_true2 S_euler L_euler L_euler2
  BaseNd BaseIdx S_process L_nd L_pack L_process P_source3 M_rv S_rv M_analytical S_analytical M_anti S_dist S_law P_chf L_line L_complex L_law L_law2 L_law4 L_law5 S_gval L_gval L_gval2 L_gval3 L_gval4 S_tval L_tval L_tval2 L_tval3 L_tval4 L_tval6
  L_gop L_cirop L_nrun L_cirrun L_dist S_mean L_conv L_cok.
Import ListNotations.
Local Open Scope R_scope.

Lemma tame_growth f : exp_growth f <-> tame f.
Proof.
  split; intros (H & C & c & C0 & c0 & D); split; auto.
  - exists C, c. split; auto. split; auto. intro x. eapply Rle_trans; [apply D|]. apply Rmult_le_compat_l; auto. apply (ch_abs c x c0).
  - exists (2*C), c. split; [lra|]. split; auto. intro x. eapply Rle_trans; [apply D|]. destruct (ch_abs c x c0) as [_ K].
    apply Rle_trans with (C * (2 * exp (c * Rabs x))); [apply Rmult_le_compat_l; auto|right; ring].
Qed.
Lemma rprod_C {A} (f : A -> R) l : RtoC (rprod f l) = cprod (fun a => RtoC (f a)) l.
Proof. unfold rprod, cprod. induction l as [|a l IH]; [reflexivity|]. cbn [map fold_right]. rewrite RtoC_mult, IH. reflexivity. Qed.
Lemma rprod_ext {A} (f h : A -> R) l : (forall a, In a l -> f a = h a) -> rprod f l = rprod h l.
Proof. intro H. unfold rprod. f_equal. apply map_ext_in. exact H. Qed.

Section Entries.
Context {G : Type}.
Variable L : nat -> (G -> R) -> R.
(** all entries of an increment are normal, and independent *)
Definition entries_normal (w : list nat) (dw : G -> R -> R -> res (G * arr R)) : Prop :=
  (forall g t dt, exists g' z, dw g t dt = Ok (g', z) /\ shp z = w) /\
  forall t dt d (Phi : (list nat -> R) -> G -> R) (V : list nat -> R -> R) (r : list nat -> R), (forall ix, inb w ix -> mean_normal (fun z => V ix (sqrt (Rabs dt) * z)) (r ix)) ->
    (forall y y' g, (forall ix, inb w ix -> y ix = y' ix) -> Phi y g = Phi y' g) ->
    (forall y, L d (Phi y) = rprod (fun ix => V ix (y ix)) (ndindex w)) ->
    L (S d) (fun g => Phi (snd (dw_inc dw g t dt)) (fst (dw_inc dw g t dt))) = rprod r (ndindex w).
Definition entries_sums (w : list nat) (dw : G -> R -> R -> res (G * arr R)) : Prop :=
  (forall g t dt, exists g' z, dw g t dt = Ok (g', z) /\ shp z = w) /\
  forall t dt d (Phi : (list nat -> R) -> G -> R) K (u : nat -> R) (V : nat -> list nat -> R -> R) (r : nat -> list nat -> R), (forall k ix, (k < K)%nat -> inb w ix -> mean_normal (fun z => V k ix (sqrt (Rabs dt) * z)) (r k ix)) ->
    (forall y y' g, (forall ix, inb w ix -> y ix = y' ix) -> Phi y g = Phi y' g) ->
    (forall y, L d (Phi y) = rsum (fun k => u k * rprod (fun ix => V k ix (y ix)) (ndindex w)) (seq 0 K)) ->
    L (S d) (fun g => Phi (snd (dw_inc dw g t dt)) (fst (dw_inc dw g t dt))) = rsum (fun k => u k * rprod (r k) (ndindex w)) (seq 0 K).
(** the same, for one entry *)
Definition entry_mean (w : list nat) (dw : G -> R -> R -> res (G * arr R)) : Prop :=
  (forall g t dt, exists g' z, dw g t dt = Ok (g', z) /\ shp z = w) /\
  forall t dt ix d (Phi : R -> G -> R) V r, inb w ix -> mean_normal (fun z => V (sqrt (Rabs dt) * z)) r -> mean_normal (fun z => V (- (sqrt (Rabs dt) * z))) r -> (forall y, L d (Phi y) = V y) ->
    L (S d) (fun g => Phi (snd (dw_inc dw g t dt) ix) (fst (dw_inc dw g t dt))) = r.
Hypothesis HL : is_law L.
Variables (normal : list nat -> G -> res (arr R) * G) (mvnormal : arr R -> list nat -> G -> res (arr R) * G).
Hypothesis N_ok : normal_ok normal.
Variables (vshape : list nat) (n : nat).
Hypothesis N_law : normal_law L normal (vshape ++ [n]).
Lemma plain_entries : entries_normal (vshape ++ [n]) (at_step (wiener_call normal mvnormal n vshape PNone)).
Proof using HL N_ok N_law.
  assert (V : forall g t dt, exists z, at_step (wiener_call normal mvnormal n vshape PNone) g t dt = Ok (snd (normal (vshape ++ [n])%list g), z) /\ shp z = (vshape ++ [n])%list /\
    exists a, fst (normal (vshape ++ [n])%list g) = Ok a /\ shp a = (vshape ++ [n])%list /\ forall ix, inb (vshape ++ [n]) ix -> bget z ix = dat a ix * sqrt (Rabs dt)).
  { intros g t dt. destruct (C27_uncorrelated normal mvnormal n vshape (ascalar t) (ascalar dt) g [] N_ok eq_refl) as (z & g' & dz & E1 & D & S & H).
    cbn [app] in E1, S. exists dz. unfold at_step. rewrite D, E1. cbn [fst snd]. split; [reflexivity|]. split; [exact S|]. exists z. split; [reflexivity|].
    split. { destruct (N_ok (vshape ++ [n])%list g) as (z1 & g1 & E2 & S1). rewrite E1 in E2. injection E2 as <- <-. exact S1. }
    intros ix HI. rewrite bget_self by (rewrite S; auto). specialize (H [] ix). cbn [app] in H. rewrite H; auto. constructor. }
  split. { intros g t dt. destruct (V g t dt) as (z & E & S & _). eauto. }
  intros t dt d Phi W r TW PE HP. set (w := (vshape ++ [n])%list) in *. set (c := sqrt (Rabs dt)).
  assert (X := N_law d (fun a g => RtoC (Phi (fun ix => c * dat a ix) g)) (fun ix x => RtoC (W ix (c*x))) (fun ix => RtoC (r ix)) 1%C).
  destruct X as [X _].
  - intros a _ _. cbv beta. rewrite <- rprod_C. split; cbn [fst snd RtoC Cmult]; [rewrite HP; ring|rewrite (proj2 HL); ring].
  - intros ix HI. split; cbn [fst snd RtoC]; [apply TW; exact HI|exact (mean_const 0)].
  - rewrite <- rprod_C in X. cbn [fst snd RtoC Cmult] in X.
    transitivity (rprod r (ndindex w) * 1 - 0*0); [|ring]. rewrite <- X. apply (proj1 HL). intro g. unfold after, dw_inc.
    destruct (V g t dt) as (z & E & S & a & EA & SA & HZ). rewrite E. cbn [fst snd].
    destruct (normal w g) as [[a'|] g']; cbn [fst snd] in *; [|discriminate]. injection EA as ->.
    apply PE. intros ix HI. rewrite HZ by exact HI. fold c. ring.
Qed.
Lemma plain_sums : normal_sums L normal (vshape ++ [n]) -> entries_sums (vshape ++ [n]) (at_step (wiener_call normal mvnormal n vshape PNone)).
Proof using HL N_ok.
  intro NS.
  assert (V : forall g t dt, exists z, at_step (wiener_call normal mvnormal n vshape PNone) g t dt = Ok (snd (normal (vshape ++ [n])%list g), z) /\ shp z = (vshape ++ [n])%list /\
    exists a, fst (normal (vshape ++ [n])%list g) = Ok a /\ shp a = (vshape ++ [n])%list /\ forall ix, inb (vshape ++ [n]) ix -> bget z ix = dat a ix * sqrt (Rabs dt)).
  { intros g t dt. destruct (C27_uncorrelated normal mvnormal n vshape (ascalar t) (ascalar dt) g [] N_ok eq_refl) as (z & g' & dz & E1 & D & S & H).
    cbn [app] in E1, S. exists dz. unfold at_step. rewrite D, E1. cbn [fst snd]. split; [reflexivity|]. split; [exact S|]. exists z. split; [reflexivity|].
    split. { destruct (N_ok (vshape ++ [n])%list g) as (z1 & g1 & E2 & S1). rewrite E1 in E2. injection E2 as <- <-. exact S1. }
    intros ix HI. rewrite bget_self by (rewrite S; auto). specialize (H [] ix). cbn [app] in H. rewrite H; auto. constructor. }
  split. { intros g t dt. destruct (V g t dt) as (z & E & S & _). eauto. }
  intros t dt d Phi K u W r TW PE HP. set (w := (vshape ++ [n])%list) in *. set (c := sqrt (Rabs dt)).
  rewrite <- (NS d (fun a g => Phi (fun ix => c * dat a ix) g) K u (fun k ix x => W k ix (c*x)) r).
  - apply (proj1 HL). intro g. unfold dw_inc.
    destruct (V g t dt) as (z & E & S & a & EA & SA & HZ). rewrite E. cbn [fst snd].
    destruct (normal w g) as [[a'|] g']; cbn [fst snd] in *; [|discriminate]. injection EA as ->.
    apply PE. intros ix HI. rewrite HZ by exact HI. fold c. ring.
  - intros a _. apply HP.
  - intros k ix Hk HI. apply TW; auto.
Qed.
Lemma plain_mean : entry_mean (vshape ++ [n]) (at_step (wiener_call normal mvnormal n vshape PNone)).
Proof using HL N_ok N_law.
  assert (V : forall g t dt, exists z, at_step (wiener_call normal mvnormal n vshape PNone) g t dt = Ok (snd (normal (vshape ++ [n])%list g), z) /\ shp z = (vshape ++ [n])%list /\
    exists a, fst (normal (vshape ++ [n])%list g) = Ok a /\ shp a = (vshape ++ [n])%list /\ forall ix, inb (vshape ++ [n]) ix -> bget z ix = dat a ix * sqrt (Rabs dt)).
  { intros g t dt. destruct (C27_uncorrelated normal mvnormal n vshape (ascalar t) (ascalar dt) g [] N_ok eq_refl) as (z & g' & dz & E1 & D & S & H).
    cbn [app] in E1, S. exists dz. unfold at_step. rewrite D, E1. cbn [fst snd]. split; [reflexivity|]. split; [exact S|]. exists z. split; [reflexivity|].
    split. { destruct (N_ok (vshape ++ [n])%list g) as (z1 & g1 & E2 & S1). rewrite E1 in E2. injection E2 as <- <-. exact S1. }
    intros ix HI. rewrite bget_self by (rewrite S; auto). specialize (H [] ix). cbn [app] in H. rewrite H; auto. constructor. }
  split. { intros g t dt. destruct (V g t dt) as (z & E & S & _). eauto. }
  intros t dt ix d Phi W r HI TW TN HP. set (w := (vshape ++ [n])%list) in *. set (c := sqrt (Rabs dt)).
  set (dec := list_eq_dec Nat.eq_dec).
  assert (X := N_law d (fun a g => RtoC (Phi (c * dat a ix) g)) (fun jx x => if dec ix jx then RtoC (W (c*x)) else 1%C)
    (fun jx => if dec ix jx then RtoC r else 1%C) 1%C).
  destruct X as [X _].
  - intros a _ _. cbv beta.
    rewrite (cprod_pick dec (fun jx => RtoC (W (c * dat a jx)))); [|apply NoDup_ndindex|apply in_ndindex; exact HI].
    split; cbn [fst snd RtoC Cmult]; [rewrite HP; ring|rewrite (proj2 HL); ring].
  - intros jx _. destruct (dec ix jx) as [_|_].
    + split; cbn [fst snd RtoC]; [exact TW|exact (mean_const 0)].
    + split; cbn [fst snd RtoC]; [exact (mean_const 1)|exact (mean_const 0)].
  - rewrite (cprod_pick dec (fun jx => RtoC r)) in X; [|apply NoDup_ndindex|apply in_ndindex; exact HI].
    cbn [fst snd RtoC Cmult] in X. transitivity (r * 1 - 0*0); [|ring]. rewrite <- X. apply (proj1 HL). intro g. unfold after, dw_inc.
    destruct (V g t dt) as (z & E & S & a & EA & SA & HZ). rewrite E. cbn [fst snd].
    destruct (normal w g) as [[a'|] g']; cbn [fst snd] in *; [|discriminate]. injection EA as ->.
    rewrite HZ by exact HI. fold c. rewrite Rmult_comm. reflexivity.
Qed.
Lemma anti_mean s : odd_wiener_source normal mvnormal INone INone (2*n) vshape = Ok s -> entry_mean (vshape ++ [(2*n)%nat]) (at_step s).
Proof using HL N_ok N_law.
  unfold odd_wiener_source, antithetics_source. destruct (C30_even_paths (2*n)) as [E0 _]. rewrite Nat.even_mul in E0. cbn [Nat.even orb] in E0. rewrite E0. cbn [rbind].
  replace (2*n/2)%nat with n by (rewrite Nat.mul_comm, Nat.div_mul; lia).
  unfold wiener_source. rewrite wiener_new_none. cbn [rbind]. intro HS. injection HS as HS. set (s0 := wiener_call normal mvnormal n vshape PNone) in *.
  destruct plain_mean as [GV GS]. fold s0 in GV, GS.
  assert (V : forall g t dt, exists g' z z', at_step s0 g t dt = Ok (g', z) /\ shp z = (vshape ++ [n])%list /\
    at_step s g t dt = Ok (g', z') /\ shp z' = (vshape ++ [(2*n)%nat])%list /\
    forall r j, inb vshape r -> (j < n)%nat -> bget z' (r ++ [j])%list = bget z (r ++ [j])%list /\ bget z' (r ++ [(n + j)%nat])%list = - bget z (r ++ [j])%list).
  { intros g t dt. destruct (GV g t dt) as (g' & z & EZ & S). unfold at_step in EZ. destruct (s0 (ascalar t) (ascalar dt) g) as [[z1|] g1] eqn:E1; [|discriminate].
    injection EZ as -> ->. destruct (C30_halves (fun z => 0 - z) (s0 (ascalar t) (ascalar dt)) g z g' vshape n E1 S) as (z' & H1 & H2 & H3).
    exists g', z, z'. unfold at_step. rewrite E1, <- HS, H1. split; [reflexivity|]. split; [exact S|]. split; [reflexivity|]. split; [exact H2|].
    intros r j Hr Hj. destruct (H3 r j Hr Hj) as [X Y].
    rewrite !(bget_self z') by (rewrite H2; apply inb_app; auto; repeat constructor; lia). rewrite (bget_self z) by (rewrite S; apply inb_app; auto; repeat constructor; lia).
    rewrite X, Y. split; [reflexivity|ring]. }
  split. { intros g t dt. destruct (V g t dt) as (g' & z & z' & _ & _ & E1 & E2 & _). eauto. }
  intros t dt ix d Phi W v HI TW TN HP. apply inb_snoc in HI. destruct HI as (r & j & -> & Hr & Hj).
  destruct (lt_dec j n) as [J|J].
  - rewrite <- (GS t dt (r ++ [j])%list d Phi W v); [|apply inb_app; auto; repeat constructor; lia|exact TW|exact TN|exact HP].
    apply (proj1 HL). intro g. unfold dw_inc. destruct (V g t dt) as (g' & z & z' & E1 & _ & E2 & _ & H). rewrite E1, E2. cbn [fst snd]. destruct (H r j Hr J) as [-> _]. reflexivity.
  - replace j with (n + (j - n))%nat by lia.
    rewrite <- (GS t dt (r ++ [(j - n)%nat])%list d (fun y => Phi (- y)) (fun y => W (- y)) v); [|apply inb_app; auto; repeat constructor; lia|exact TN| |intro y; apply HP].
    + apply (proj1 HL). intro g. unfold dw_inc. destruct (V g t dt) as (g' & z & z' & E1 & _ & E2 & _ & H). rewrite E1, E2. cbn [fst snd]. destruct (H r (j - n)%nat Hr ltac:(lia)) as [_ ->]. reflexivity.
    + eapply mean_ext; [exact TW| |reflexivity]. intro z. cbv beta. rewrite Ropp_involutive. reflexivity.
Qed.
End Entries.
Lemma noise_mean {G} (L : nat -> (G -> R) -> R) normal mvnormal anti c n paths vshape s :
  noise_source L normal mvnormal anti INone INone c n paths vshape s -> entry_mean L (vshape ++ [paths]) (at_step s).
Proof.
  intros (HL & N_ok & M_ok & N_law & M_law & HC & -> & HS). destruct anti; cbn [given_dw] in HS; unfold source_dw, source_setup in HS.
  - eapply anti_mean; eauto.
  - unfold wiener_source in HS. rewrite wiener_new_none in HS. cbn [rbind] in HS. injection HS as <-. apply plain_mean; auto.
Qed.

Lemma noise_entries {G} (L : nat -> (G -> R) -> R) normal mvnormal c n paths vshape s :
  noise_source L normal mvnormal false INone INone c n paths vshape s -> entries_normal L (vshape ++ [paths]) (at_step s).
Proof.
  intros (HL & N_ok & M_ok & N_law & M_law & HC & -> & HS). cbn [given_dw] in HS. unfold source_dw, source_setup in HS.
  unfold wiener_source in HS. rewrite wiener_new_none in HS. cbn [rbind] in HS. injection HS as <-. apply plain_entries; auto.
Qed.
Lemma noise_sums {G} (L : nat -> (G -> R) -> R) normal mvnormal c n paths vshape s :
  noise_source L normal mvnormal false INone INone c n paths vshape s -> normal_sums L normal (vshape ++ [paths]) -> entries_sums L (vshape ++ [paths]) (at_step s).
Proof.
  intros (HL & N_ok & M_ok & N_law & M_law & HC & -> & HS) NS. cbn [given_dw] in HS. unfold source_dw, source_setup in HS.
  unfold wiener_source in HS. rewrite wiener_new_none in HS. cbn [rbind] in HS. injection HS as <-. apply plain_sums; auto.
Qed.

(** *** linear equations *)
Section Law.
Context {G : Type}.
Variable L : nat -> (G -> R) -> R.
Hypothesis HL : is_law L.
Variables (w : list nat) (dw : G -> R -> R -> res (G * arr R)).
Variables (al ka b : R -> list nat -> R) (gr : list R).
Definition lstep (t dt : R) (x z : list nat -> R) (ix : list nat) : R := x ix + (al t ix - ka t ix * x ix) * dt + b t ix * z ix.
Lemma lstep_ext t dt x x' z z' ix : x ix = x' ix -> z ix = z' ix -> lstep t dt x z ix = lstep t dt x' z' ix.
Proof. intros E1 E2. unfold lstep. rewrite E1, E2. reflexivity. Qed.
Lemma fgo_lext ix m : forall n x x' g, x ix = x' ix -> fgo (dw_inc dw) lstep gr m n x g ix = fgo (dw_inc dw) lstep gr m n x' g ix.
Proof. induction m as [|m IH]; intros n x x' g E; [exact E|]. cbn [fgo]. cbv zeta. apply IH. apply lstep_ext; auto. Qed.

(** one more step *)
Lemma affine_mean f c k v x a e q : 0 <= v -> cok f ->
  mean_normal (fun z => EN (fun y => f (c + k * (x + a + e * (q * z)) + sqrt v * y))) (EN (fun z => f (c + k * a + k * x + sqrt ((k*e*q)*(k*e*q) + v) * z))).
Proof.
  intros V TF. assert (X := TF (c + k*a + k*x) (k*e*q) (sqrt v)). rewrite (sqrt_sqrt v V) in X.
  eapply mean_ext; [exact X| |reflexivity]. intro z. apply EN_ext. intro y. f_equal. ring.
Qed.
(** values after m steps from n, starting from x, are normal: mean lc + lk x and variance lv *)
Fixpoint lk (ix : list nat) (m n : nat) : R := match m with O => 1 | S m => lk ix m (S n) * (1 - ka (nth n gr 0) ix * gap gr n) end.
Fixpoint lc (ix : list nat) (m n : nat) : R := match m with O => 0 | S m => lc ix m (S n) + lk ix m (S n) * (al (nth n gr 0) ix * gap gr n) end.
Fixpoint lv (ix : list nat) (m n : nat) : R :=
  match m with O => 0 | S m => (lk ix m (S n) * b (nth n gr 0) ix * sqrt (Rabs (gap gr n))) * (lk ix m (S n) * b (nth n gr 0) ix * sqrt (Rabs (gap gr n))) + lv ix m (S n) end.
Lemma lv_pos ix m : forall n, 0 <= lv ix m n.
Proof. induction m as [|m IH]; intro n; cbn [lv]; [lra|]. apply Rplus_le_le_0_compat; [apply Rle_0_sqr|apply IH]. Qed.
Lemma one_linear (HE : entry_mean L w dw) ix : inb w ix -> forall m n x f d, cok f -> (m <= d)%nat ->
  L d (fun g => f (fgo (dw_inc dw) lstep gr m n x g ix)) = EN (fun z => f (lc ix m n + lk ix m n * x ix + sqrt (lv ix m n) * z)).
Proof using HL.
  intros HI m. induction m as [|m IH]; intros n x f d TF Hd.
  - cbn [fgo lk lc lv]. rewrite (proj2 HL d (f (x ix))).
    rewrite (EN_ext _ (fun _ => f (x ix))) by (intro z; f_equal; rewrite sqrt_0; ring). symmetry. apply EN_const.
  - cbn [lk lc lv]. set (t := nth n gr 0). set (dt := gap gr n). set (q := sqrt (Rabs dt)). set (c := lc ix m (S n)). set (k := lk ix m (S n)). set (v := lv ix m (S n)).
    assert (V := lv_pos ix m (S n)). fold v in V. destruct d as [|d]; [lia|].
    set (F := fun u => EN (fun z => f (c + k * (x ix + (al t ix - ka t ix * x ix) * dt + b t ix * u) + sqrt v * z))).
    set (Phi := fun u g => f (fgo (dw_inc dw) lstep gr m (S n) (fun jx => x jx + (al t jx - ka t jx * x jx) * dt + b t jx * u) g ix)).
    transitivity (L (S d) (fun g => Phi (snd (dw_inc dw g t dt) ix) (fst (dw_inc dw g t dt)))).
    { apply (proj1 HL). intro g. cbn [fgo]. cbv zeta. fold t dt. unfold Phi. f_equal. apply fgo_lext. reflexivity. }
    apply (proj2 HE t dt ix d Phi F _ HI).
    + unfold F. fold q. eapply mean_ext; [apply (affine_mean f c k v (x ix + (al t ix - ka t ix * x ix) * dt) 0 (b t ix) q V TF)| |].
      * intro z. apply EN_ext. intro y. f_equal. ring.
      * apply EN_ext. intro z. f_equal. ring.
    + unfold F. fold q. eapply mean_ext; [apply (affine_mean f c k v (x ix + (al t ix - ka t ix * x ix) * dt) 0 (b t ix) (- q) V TF)| |].
      * intro z. apply EN_ext. intro y. f_equal. ring.
      * apply EN_ext. intro z. f_equal. replace (k * b t ix * - q * (k * b t ix * - q)) with (k * b t ix * q * (k * b t ix * q)) by ring. ring.
    + intro u. unfold Phi, F. rewrite IH by (auto; lia). reflexivity.
Qed.
Lemma all_linear (HE : entries_normal L w dw) : forall m n x f d, (forall ix, inb w ix -> cok (f ix)) -> (m <= d)%nat ->
  L d (fun g => rprod (fun ix => f ix (fgo (dw_inc dw) lstep gr m n x g ix)) (ndindex w)) = rprod (fun ix => EN (fun z => f ix (lc ix m n + lk ix m n * x ix + sqrt (lv ix m n) * z))) (ndindex w).
Proof using HL.
  intro m. induction m as [|m IH]; intros n x f d TF Hd.
  - cbn [fgo lk lc lv].
    rewrite (proj2 HL d (rprod (fun ix => f ix (x ix)) (ndindex w))). apply rprod_ext. intros ix _.
    rewrite (EN_ext _ (fun _ => f ix (x ix))) by (intro z; f_equal; rewrite sqrt_0; ring). symmetry. apply EN_const.
  - set (t := nth n gr 0). set (dt := gap gr n). destruct d as [|d]; [lia|].
    set (F := fun ix u => EN (fun z => f ix (lc ix m (S n) + lk ix m (S n) * (x ix + (al t ix - ka t ix * x ix) * dt + b t ix * u) + sqrt (lv ix m (S n)) * z))).
    set (Phi := fun (y : list nat -> R) g => rprod (fun ix => f ix (fgo (dw_inc dw) lstep gr m (S n) (lstep t dt x y) g ix)) (ndindex w)).
    transitivity (L (S d) (fun g => Phi (snd (dw_inc dw g t dt)) (fst (dw_inc dw g t dt)))).
    { apply (proj1 HL). intro g. reflexivity. }
    apply (proj2 HE t dt d Phi F).
    + intros ix HI. unfold F. cbn [lc lk lv]. fold t dt.
      set (q := sqrt (Rabs dt)). set (c := lc ix m (S n)). set (k := lk ix m (S n)). set (v := lv ix m (S n)).
      eapply mean_ext; [apply (affine_mean (f ix) c k v (x ix + (al t ix - ka t ix * x ix) * dt) 0 (b t ix) q (lv_pos ix m (S n)) (TF ix HI))| |].
      * intro z. apply EN_ext. intro y. f_equal. ring.
      * apply EN_ext. intro z. f_equal. ring.
    + intros y y' g E. unfold Phi. apply rprod_ext. intros ix HI. apply in_ndindex in HI. f_equal. apply fgo_lext. apply lstep_ext; auto.
    + intro y. unfold Phi, F. rewrite (IH (S n) (lstep t dt x y) f d TF ltac:(lia)). reflexivity.
Qed.
Lemma sum_linear (HE : entries_sums L w dw) K : forall m n x u f d, (forall k ix, (k < K)%nat -> inb w ix -> cok (f k ix)) -> (m <= d)%nat ->
  L d (fun g => rsum (fun k => u k * rprod (fun ix => f k ix (fgo (dw_inc dw) lstep gr m n x g ix)) (ndindex w)) (seq 0 K)) =
  rsum (fun k => u k * rprod (fun ix => EN (fun z => f k ix (lc ix m n + lk ix m n * x ix + sqrt (lv ix m n) * z))) (ndindex w)) (seq 0 K).
Proof using HL.
  intro m. induction m as [|m IH]; intros n x u f d TF Hd.
  - cbn [fgo lk lc lv].
    rewrite (proj2 HL d (rsum (fun k => u k * rprod (fun ix => f k ix (x ix)) (ndindex w)) (seq 0 K))). apply rsum_ext. intros k _. f_equal. apply rprod_ext. intros ix _.
    rewrite (EN_ext _ (fun _ => f k ix (x ix))) by (intro z; f_equal; rewrite sqrt_0; ring). symmetry. apply EN_const.
  - set (t := nth n gr 0). set (dt := gap gr n). destruct d as [|d]; [lia|].
    set (F := fun k ix y => EN (fun z => f k ix (lc ix m (S n) + lk ix m (S n) * (x ix + (al t ix - ka t ix * x ix) * dt + b t ix * y) + sqrt (lv ix m (S n)) * z))).
    set (Phi := fun (y : list nat -> R) g => rsum (fun k => u k * rprod (fun ix => f k ix (fgo (dw_inc dw) lstep gr m (S n) (lstep t dt x y) g ix)) (ndindex w)) (seq 0 K)).
    transitivity (L (S d) (fun g => Phi (snd (dw_inc dw g t dt)) (fst (dw_inc dw g t dt)))).
    { apply (proj1 HL). intro g. reflexivity. }
    apply (proj2 HE t dt d Phi K u F).
    + intros j ix Hj HI. unfold F. cbn [lc lk lv]. fold t dt.
      set (q := sqrt (Rabs dt)). set (c := lc ix m (S n)). set (k := lk ix m (S n)). set (v := lv ix m (S n)).
      eapply mean_ext; [apply (affine_mean (f j ix) c k v (x ix + (al t ix - ka t ix * x ix) * dt) 0 (b t ix) q (lv_pos ix m (S n)) (TF j ix Hj HI))| |].
      * intro z. apply EN_ext. intro y. f_equal. ring.
      * apply EN_ext. intro z. f_equal. ring.
    + intros y y' g E. unfold Phi. apply rsum_ext. intros j _. f_equal. apply rprod_ext. intros ix HI. apply in_ndindex in HI. f_equal. apply fgo_lext. apply lstep_ext; auto.
    + intro y. unfold Phi, F. rewrite (IH (S n) (lstep t dt x y) u f d TF ltac:(lia)). reflexivity.
Qed.
(** constant drift and noise *)
Lemma lk_flat ix : (forall t, ka t ix = 0) -> forall m n, lk ix m n = 1.
Proof. intros K0 m. induction m as [|m IH]; intro n; cbn [lk]; [reflexivity|]. rewrite IH, K0. ring. Qed.
Lemma lc_flat ix a : (forall t, ka t ix = 0) -> (forall t, al t ix = a) -> forall m n, lc ix m n = a * (nth (n + m) gr 0 - nth n gr 0).
Proof.
  intros K0 A0 m. induction m as [|m IH]; intro n; cbn [lc]; [rewrite Nat.add_0_r; ring|]. rewrite IH, (lk_flat ix K0), A0. unfold gap. replace (S n + m)%nat with (n + S m)%nat by lia. ring.
Qed.
Lemma lv_flat ix s : (forall t, ka t ix = 0) -> (forall t, b t ix = s) -> forall m n, (forall j, (j < n + m)%nat -> 0 <= gap gr j) -> lv ix m n = s * s * (nth (n + m) gr 0 - nth n gr 0).
Proof.
  intros K0 A0 m. induction m as [|m IH]; intros n HG; cbn [lv]; [rewrite Nat.add_0_r; ring|]. rewrite IH by (intros; apply HG; lia). rewrite (lk_flat ix K0), A0.
  assert (P := HG n ltac:(lia)). rewrite (Rabs_pos_eq _ P). replace (1 * s * sqrt (gap gr n) * (1 * s * sqrt (gap gr n))) with (s*s*(sqrt (gap gr n) * sqrt (gap gr n))) by ring. rewrite sqrt_sqrt by exact P.
  unfold gap. replace (S n + m)%nat with (n + S m)%nat by lia. ring.
Qed.
End Law.
