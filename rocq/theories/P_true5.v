(** C23: counting paths by true_poisson_source; C18: the sources with memory. *)
From Coq Require Import List Arith Bool Lia ZArith Reals Lra Sorted.
From Verif Require Import Base BaseNum BaseArr BaseNd BaseIdx M_process M_source M_true S_process S_source S_mc S_true L_nd L_sdes L_process L_process2 L_source L_true L_true2 L_true3 P_source P_true P_true3.
Import ListNotations.
Local Open Scope R_scope.

(** *** C18, for each of the sources *)
Theorem C18_wiener {G} normal mvnormal inv paths vshape corr t0 rtol z0 m0 (g0 : G) m g s x st1 st2 :
  normal_ok normal -> 0 <= rtol -> calm rtol t0 -> true_new (fun w : arr R => w) (vshape ++ [paths]) t0 z0 = Ok m0 ->
  let eval := true_wiener normal mvnormal inv paths vshape corr t0 rtol in
  let hist := history (fun w => w) (wiener_outside normal mvnormal paths vshape corr t0) (wiener_inside normal mvnormal inv paths vshape corr t0) rtol (vshape ++ [paths]) nsub 0 in
  hist (m0, g0) (m, g) -> eval (ascalar s) None (m, g) = (Ok x, st1) -> hist st1 st2 -> exists y, eval (ascalar s) None st2 = (Ok y, st2) /\ aeq y x.
Proof.
  intros N P C M0 eval hist H E H'. assert (Dis := wiener_disciplined normal mvnormal inv paths vshape corr t0 N).
  apply (C18_same_value _ _ _ _ _ nsub 0 _ Dis P (fun w => w) (fun x => eq_refl) t0 z0 m0 g0 M0 m g s x st1 st2 H); auto.
  apply (C18_calm _ _ _ _ _ nsub 0 _ Dis P (fun w => w) (fun x => eq_refl) t0 z0 m0 g0 M0 m g s H C).
Qed.
Theorem C18_poisson {G} poisson binomial paths vshape lam t0 rtol z0 m0 (g0 : G) m g s x st1 st2 :
  poisson_ok poisson -> binomial_ok binomial -> 0 <= rtol -> calm rtol t0 -> true_new (fun n : arr Z => n) (vshape ++ [paths]) t0 z0 = Ok m0 ->
  let eval := true_poisson poisson binomial paths vshape lam rtol in
  let hist := history (fun n => n) (poisson_outside poisson paths vshape lam) (poisson_inside binomial) rtol (vshape ++ [paths]) Z.sub 0%Z in
  hist (m0, g0) (m, g) -> eval (ascalar s) None (m, g) = (Ok x, st1) -> hist st1 st2 -> exists y, eval (ascalar s) None st2 = (Ok y, st2) /\ aeq y x.
Proof.
  intros Po Bi P C M0 eval hist H E H'. assert (Dis := poisson_disciplined poisson binomial paths vshape lam Po Bi).
  apply (C18_same_value _ _ _ _ _ Z.sub 0%Z _ Dis P (fun w => w) (fun x => eq_refl) t0 z0 m0 g0 M0 m g s x st1 st2 H); auto.
  apply (C18_calm _ _ _ _ _ Z.sub 0%Z _ Dis P (fun w => w) (fun x => eq_refl) t0 z0 m0 g0 M0 m g s H C).
Qed.
Theorem C18_cpoisson {G} poisson binomial rvs paths vshape lam dn_rtol t0 rtol z0 m0 (g0 : list (R * arr Z) * G) m g s x st1 st2 :
  0 <= rtol -> calm rtol t0 -> true_new (fun j : arr R => (j, None)) (vshape ++ [paths]) t0 z0 = Ok m0 ->
  let eval := true_cpoisson poisson binomial rvs paths vshape lam dn_rtol rtol in
  let hist := history fst (cpoisson_out poisson binomial rvs paths vshape lam dn_rtol) (cpoisson_in poisson binomial paths vshape lam dn_rtol) rtol (vshape ++ [paths]) nsub 0 in
  hist (m0, g0) (m, g) -> eval (ascalar s) None (m, g) = (Ok x, st1) -> hist st1 st2 -> exists y, eval (ascalar s) None st2 = (Ok y, st2) /\ aeq y x.
Proof.
  intros P C M0 eval hist H E H'. assert (Dis := cpoisson_disciplined poisson binomial rvs paths vshape lam dn_rtol).
  apply (C18_same_value _ _ _ _ _ nsub 0 _ Dis P (fun j : arr R => (j, None)) (fun x => eq_refl) t0 z0 m0 g0 M0 m g s x st1 st2 H); auto.
  apply (C18_calm _ _ _ _ _ nsub 0 _ Dis P (fun j : arr R => (j, None)) (fun x => eq_refl) t0 z0 m0 g0 M0 m g s H C).
Qed.

(** *** programs that agree as long as an invariant holds *)
Definition agreeing {S A} (Inv : S -> Prop) (c c' : S -> res A * S) : Prop := forall st, Inv st -> c st = c' st /\ Inv (snd (c st)).
Lemma agreeing_bind {S A B} (Inv : S -> Prop) (c c' : S -> res A * S) (f f' : A -> S -> res B * S) : agreeing Inv c c' -> (forall a, agreeing Inv (f a) (f' a)) -> agreeing Inv (dbind c f) (dbind c' f').
Proof. intros H1 H2 st I. destruct (H1 st I) as [E J]. unfold dbind. rewrite <- E. destruct (c st) as [[a|e] st1]; cbn [snd] in J; [apply H2; auto|auto]. Qed.
Lemma agreeing_pure {S A} (Inv : S -> Prop) (r : res A) : agreeing Inv (dres r) (dres r).
Proof. intros st I. split; auto. Qed.
Lemma agreeing_each {S A I} (Inv : S -> Prop) (f f' : I -> S -> res A * S) l : (forall i, agreeing Inv (f i) (f' i)) -> agreeing Inv (each f l) (each f' l).
Proof. intro H. induction l as [|i l IH]; [apply (agreeing_pure Inv (Ok []))|]. cbn [each]. apply agreeing_bind; auto. intro b. apply agreeing_bind; auto. intro r. apply (agreeing_pure Inv (Ok ((i, b) :: r))). Qed.

Section Poisson.
Context {G : Type}.
Variable poisson : arr R -> list nat -> G -> res (arr Z) * G.
Variable binomial : arr Z -> R -> list nat -> G -> res (arr Z) * G.
Variables (paths : nat) (vshape : list nat) (lam : param R).
Hypothesis Po : poisson_ok poisson.
Hypothesis Bi : binomial_ok binomial.
Let zs := vshape ++ [paths].
Variable rtol : R.
Hypothesis rtol_pos : 0 <= rtol.
Local Notation out := (poisson_outside poisson paths vshape lam).
Local Notation ins := (poisson_inside binomial).
Local Notation dis := (poisson_disciplined poisson binomial paths vshape lam Po Bi).
Local Notation ret := (retrieve1 (fun n : arr Z => n) out ins rtol).
Local Notation eval := (true_poisson poisson binomial paths vshape lam rtol).
Local Notation hist := (history (fun n : arr Z => n) out ins rtol zs Z.sub 0%Z).
Local Notation id := (fun n : arr Z => n).

Lemma outside_counts n t s g n1 n' g' : out n t s g = (Ok (n1, n'), g') -> shp n = zs -> n1 = n /\ shp n' = zs /\ (t < s -> counts_le zs n n') /\ (s < t -> counts_le zs n' n).
Proof using Po.
  intros E S. unfold poisson_outside in E. apply dbind_ok in E. destruct E as (d & g1 & H1 & E). apply dbind_ok in E. destruct E as (w & g2 & H2 & E). apply dres_ok in H2. destruct H2 as [H2 ->]. apply dret_ok in E. destruct E as [E ->]. injection E as -> ->. split; auto.
  assert (Sd := poisson_call_shape poisson paths vshape lam Po _ _ _ _ _ H1). destruct (aop_same_shape _ _ _ zs _ H2 S Sd) as [Sw Hw]. split; auto.
  assert (Q : forall ix, inb zs ix -> (0 < s - t -> (0 <= dat d ix)%Z) /\ (s - t < 0 -> (dat d ix <= 0)%Z)).
  { intros ix I. destruct (C26_poisson_zero poisson paths vshape lam (ascalar t) (ascalar (s - t)) g [] d _ [] ix Po eq_refl H1 ltac:(constructor) I) as (_ & Q1 & Q2). unfold bget in Q1, Q2. cbn [ascalar dat shp app] in Q1, Q2. auto. }
  split; intros L ix I; rewrite Hw by auto; destruct (Q ix I) as [Q1 Q2]; [specialize (Q1 ltac:(lra))|specialize (Q2 ltac:(lra))]; lia.
Qed.
Lemma inside_counts n1 n2 t1 t2 s g n' o g' : ins n1 n2 t1 t2 s g = (Ok (n', o), g') -> shp n1 = zs -> shp n2 = zs -> counts_le zs n1 n2 ->
  n' = n1 /\ match o with Some n => shp n = zs /\ counts_le zs n1 n /\ counts_le zs n n2 | None => True end.
Proof using Bi.
  intros E S1 S2 L. unfold poisson_inside in E. apply dbind_ok in E. destruct E as (b & g1 & H1 & E). apply dres_ok in H1. destruct H1 as [H1 ->]. destruct b.
  - apply dret_ok in E. destruct E as [E ->]. injection E as -> ->. auto.
  - apply dbind_ok in E. destruct E as (n & g1 & H2 & E). apply dres_ok in H2. destruct H2 as [H2 ->]. apply (aop_same_shape _ _ _ zs) in H2; auto. destruct H2 as [Sn Hn].
    apply dbind_ok in E. destruct E as (k & g1 & H3 & E). destruct (Bi _ _ _ _ _ _ H3 eq_refl) as [Sk Hk]. apply dbind_ok in E. destruct E as (w & g2 & H4 & E). apply dres_ok in H4. destruct H4 as [H4 ->]. apply dret_ok in E. destruct E as [E ->]. injection E as -> ->. split; auto.
    destruct (aop_same_shape _ _ _ zs _ H4 S1 (eq_trans Sk Sn)) as [Sw Hw]. split; auto. rewrite Sn in Hk. split; intros ix I; rewrite Hw by auto; specialize (Hk ix I); rewrite Hn in Hk by auto; lia.
Qed.
Definition rising (m : list (R * arr Z)) : Prop := StronglySorted (fun p q => counts_le zs (snd p) (snd q)) m.
Definition inv_counts (st : list (R * arr Z) * G) : Prop := wf id zs (fst st) /\ rising (fst st).
Lemma rising_app l r : rising (l ++ r) <-> rising l /\ rising r /\ forall p q, In p l -> In q r -> counts_le zs (snd p) (snd q).
Proof.
  unfold rising. induction l as [|p l IH]; cbn [app].
  - split; [intro; split; [constructor|split; auto; intros ? ? []]|tauto].
  - split.
    + intro S. inversion S as [|? ? S1 F]; subst. apply IH in S1. destruct S1 as (S1 & S2 & S3). rewrite Forall_app in F. destruct F as [F1 F2]. split; [constructor; auto|]. split; auto. intros a b [<-|I] J; [rewrite Forall_forall in F2; auto|auto].
    + intros (S1 & S2 & S3). inversion S1 as [|? ? S4 F]; subst. constructor; [apply IH; repeat split; auto; intros; apply S3; simpl; auto|]. apply Forall_app. split; auto. apply Forall_forall. intros q J. apply S3; simpl; auto.
Qed.
Lemma counts_trans a b c : counts_le zs a b -> counts_le zs b c -> counts_le zs a c.
Proof. intros H1 H2 ix I. specialize (H1 ix I). specialize (H2 ix I). lia. Qed.
Lemma rising_snoc l p q : rising (l ++ [p]) -> counts_le zs (snd p) (snd q) -> rising (l ++ [p; q]).
Proof.
  intros S L. apply rising_app in S. destruct S as (S1 & S2 & S3). apply rising_app. split; auto. split.
  - constructor; [constructor; constructor|constructor; [exact L|constructor]].
  - intros a b I [<-|[<-|[]]]; [apply S3; simpl; auto|]. eapply counts_trans; [apply S3; simpl; eauto|exact L].
Qed.
Lemma rising_cons p q l : rising (p :: l) -> counts_le zs (snd q) (snd p) -> rising (q :: p :: l).
Proof. intros S L. constructor; auto. inversion S as [|? ? S1 F]; subst. constructor; auto. eapply Forall_impl; [|exact F]. intros a Q. eapply counts_trans; [exact L|exact Q]. Qed.
Lemma rising_mid l p q r x : rising (l ++ p :: q :: r) -> counts_le zs (snd p) (snd x) -> counts_le zs (snd x) (snd q) -> rising (l ++ p :: x :: q :: r).
Proof.
  intros S L1 L2. apply rising_app in S. destruct S as (S1 & S2 & S3). inversion S2 as [|? ? S4 F]; subst. apply rising_app. split; auto. assert (S5 : rising (x :: q :: r)) by (apply rising_cons; auto). split.
  - constructor; [exact S5|]. constructor; auto.
  - intros a b I [<-|[<-|J]]; [apply S3; simpl; auto| |apply S3; simpl; auto]. apply counts_trans with (snd p); [apply S3; simpl; auto|exact L1].
Qed.
Lemma counts_step s st : inv_counts st -> inv_counts (snd (ret s st)).
Proof using Po Bi rtol_pos.
  intros [W Ri]. destruct st as [m g]. cbn [fst] in *. destruct (ret s (m, g)) as [o [m' g']] eqn:E. cbn [snd fst]. split; [apply (query_wf id out ins rtol zs _ dis rtol_pos _ _ _ _ _ _ W E)|]. cbn [fst].
  destruct W as (Nm & S & F). destruct (sorted_split m s S) as (l1 & l2 & -> & F1 & F2). destruct l1 as [|p1 l1'].
  - destruct l2 as [|[t2 z2] l3]; [elim Nm; auto|]. cbn [app] in *. destruct (memory_snoc ((t2, z2) :: l3)) as (l & [tl zl] & El); [discriminate|]. rewrite (retrieve1_start _ _ _ _ t2 z2 l3 l tl zl s g F2 El) in E. destruct (isclose rtol s tl); [congruence|].
    destruct (out z2 t2 s g) as [[[z2' zn]|e] g1] eqn:EO; [|congruence]. injection E as <- <- <-. destruct (outside_counts _ _ _ _ _ _ _ EO (Forall_inv F)) as (-> & _ & _ & Q). apply rising_cons; auto. apply Q. apply (Forall_inv F2).
  - destruct (memory_snoc (p1 :: l1')) as (l & [tk zk] & El); [discriminate|]. rewrite El in *. clear p1 l1' El. assert (L : tk <= s) by (apply Forall_app in F1; destruct F1 as [_ F1]; inversion F1; auto). destruct l2 as [|[t2 z2] l3].
    + rewrite app_nil_r in *. rewrite retrieve1_end in E by auto. destruct (isclose rtol s tk) eqn:C; [congruence|].
      destruct (out zk tk s g) as [[[zk' zn]|e] g1] eqn:EO; [|congruence]. injection E as <- <- <-. apply Forall_app in F. destruct F as [_ F]. destruct (outside_counts _ _ _ _ _ _ _ EO (Forall_inv F)) as (-> & _ & Q & _). apply rising_snoc; auto. apply Q. apply (not_close_lt rtol rtol_pos); auto. apply isclose_R_false; auto.
    + rewrite <- app_assoc in *. cbn [app] in *. rewrite retrieve1_between in E by auto. destruct (isclose rtol s tk); [congruence|]. apply Forall_app in F. destruct F as [_ F]. assert (X1 := Forall_inv F). assert (X2 := Forall_inv (Forall_inv_tail F)). cbn [snd] in X1, X2.
      assert (Lz : counts_le zs zk z2). { apply rising_app in Ri. destruct Ri as (_ & Ri & _). inversion Ri as [|? ? _ Q]; subst. apply (Forall_inv Q). }
      destruct (ins zk z2 tk t2 s g) as [[[zk' [zn|]]|e] g1] eqn:EO; [| |congruence]; injection E as <- <- <-; destruct (inside_counts _ _ _ _ _ _ _ _ _ EO X1 X2 Lz) as (-> & Q); [|exact Ri]. apply rising_mid; auto; apply Q.
Qed.
Lemma counts_queries st st' : queries id out ins rtol st st' -> inv_counts st -> inv_counts st'.
Proof using Po Bi rtol_pos.
  induction 1 as [|s st r st1 st2 E Q IH|m g g' st2 Q IH]; intro I; auto.
  - apply IH. pose proof (counts_step s st I) as J. rewrite E in J. exact J.
Qed.

Variables (t0 : R) (z0 : arr Z) (m0 : list (R * arr Z)) (g0 : G).
Hypothesis Start : true_new id zs t0 z0 = Ok m0.
Lemma counts_start g : inv_counts (m0, g).
Proof using Start.
  destruct (start_state id zs id (fun x => eq_refl) t0 z0 m0 Start) as [E W]. split; auto. rewrite E. repeat constructor.
Qed.
(** stored counts do not decrease with time, and those between equal counts are equal to them *)
Theorem C23_counting m g s n t n' ix : hist (m0, g0) (m, g) -> In (s, n) m -> In (t, n') m -> s <= t -> inb zs ix -> (dat n ix <= dat n' ix)%Z.
Proof using Po Bi rtol_pos Start.
  intros H I J L Ix. destruct (counts_queries _ _ (history_queries _ _ _ _ _ _ _ _ _ H) (counts_start g0)) as [(_ & S & _) Ri]. cbn [fst] in *. clear - I J L Ix S Ri. induction m as [|p m IH]; [destruct I|].
  inversion S as [|? ? S1 F]; subst. inversion Ri as [|? ? R1 Q]; subst. rewrite Forall_forall in Q, F. destruct I as [->|I], J as [J|J].
  - injection J as _ <-. lia.
  - apply (Q _ J ix Ix).
  - subst p. specialize (F s (in_map fst _ _ I)). cbn [fst] in F. lra.
  - apply IH; auto.
Qed.
Theorem C23_unchanged m g s n t n1 u n' ix : hist (m0, g0) (m, g) -> In (s, n) m -> In (t, n1) m -> In (u, n') m -> s <= t <= u -> inb zs ix -> dat n ix = dat n' ix -> dat n1 ix = dat n ix.
Proof using Po Bi rtol_pos Start.
  intros H I1 I2 I3 [L1 L2] Ix E. pose proof (C23_counting m g s n t n1 ix H I1 I2 L1 Ix). pose proof (C23_counting m g t n1 u n' ix H I2 I3 L2 Ix). lia.
Qed.
Lemma settled_floor m s v : wf id zs m -> settled id rtol (fun a b => all_equal Z.eqb a b = Ok true) m s v ->
  exists l1 tk zk l2, m = l1 ++ (tk, zk) :: l2 /\ tk <= s /\ List.Forall (fun p => s < fst p) l2 /\ aeq zk v.
Proof.
  intros (_ & _ & F) (l1 & tk & zk & l2 & E & L & F2 & C). exists l1, tk, zk, l2. split; auto. split; auto. split; auto. destruct C as [[_ A]|(t2 & z2 & l3 & -> & Sm & A)]; auto.
  subst m. apply Forall_app in F. destruct F as [_ F]. assert (X1 := Forall_inv F). assert (X2 := Forall_inv (Forall_inv_tail F)). cbn [snd] in X1, X2. eapply aeq_trans; [|exact A]. split; [congruence|]. intros ix I. rewrite X1 in I. apply Z.eqb_eq. eapply all_equal_spec; eauto.
Qed.
(** the same for the values returned: counts at a time are not greater than those at a later time, whichever was evaluated first *)
Theorem C23_values m g s x st1 m2 g2 t y st3 ix : calm rtol t0 -> hist (m0, g0) (m, g) -> eval (ascalar s) None (m, g) = (Ok x, st1) -> hist st1 (m2, g2) -> eval (ascalar t) None (m2, g2) = (Ok y, st3) -> inb zs ix ->
  (s <= t -> (dat x ix <= dat y ix)%Z) /\ (t <= s -> (dat y ix <= dat x ix)%Z).
Proof using Po Bi rtol_pos Start.
  intros Ca H E H' E' Ix.
  destruct (hist_state id out ins rtol zs Z.sub 0%Z _ dis rtol_pos id (fun x => eq_refl) t0 z0 m0 g0 Start m g H) as [W1 _].
  assert (H2 : hist (m0, g0) (m2, g2)) by (eapply history_trans; [exact H|]; eapply h_call; [exact E|exact H']).
  destruct (hist_state id out ins rtol zs Z.sub 0%Z _ dis rtol_pos id (fun x => eq_refl) t0 z0 m0 g0 Start m2 g2 H2) as [W2 _].
  assert (NF1 := C18_calm id out ins rtol zs Z.sub 0%Z _ dis rtol_pos id (fun x => eq_refl) t0 z0 m0 g0 Start m g s H Ca). assert (NF2 := C18_calm id out ins rtol zs Z.sub 0%Z _ dis rtol_pos id (fun x => eq_refl) t0 z0 m0 g0 Start m2 g2 t H2 Ca).
  destruct (scalar_eval id out ins rtol zs Z.sub 0%Z _ dis _ _ _ _ E m g eq_refl W1) as [(e & X)|(x' & v & X & E1 & A)]; [discriminate|]. injection X as <-.
  destruct (scalar_eval id out ins rtol zs Z.sub 0%Z _ dis _ _ _ _ E' m2 g2 eq_refl W2) as [(e & X)|(y' & u & X & E2 & A')]; [discriminate|]. injection X as <-.
  destruct st1 as [m1 g1]. destruct st3 as [m3 g3].
  assert (S1 := answer_settled id out ins rtol zs _ dis rtol_pos _ _ _ _ _ _ W1 NF1 E1). assert (S2 := answer_settled id out ins rtol zs _ dis rtol_pos _ _ _ _ _ _ W2 NF2 E2).
  assert (Q12 : queries id out ins rtol (m1, g1) (m3, g3)). { eapply queries_trans; [apply (history_queries _ _ _ _ _ _ _ _ _ H')|]. eapply q_one; [exact E2|constructor]. }
  assert (Wm1 := query_wf id out ins rtol zs _ dis rtol_pos _ _ _ _ _ _ W1 E1). assert (S1' := queries_settled _ _ _ _ _ _ dis rtol_pos _ _ _ _ Q12 Wm1 S1). cbn [fst] in S1'.
  assert (J : inv_counts (m3, g3)). { eapply counts_queries; [|apply (counts_start g0)]. eapply queries_trans; [apply (history_queries _ _ _ _ _ _ _ _ _ H2)|]. eapply q_one; [exact E2|constructor]. }
  destruct J as [W3 Ri]. cbn [fst] in W3, Ri. destruct W3 as (N3 & S3 & F3). assert (W3 : wf id zs m3) by (split; auto).
  destruct (settled_floor _ _ _ W3 S1') as (l1 & tk & zk & l2 & Em & L & Fl & Az). destruct (settled_floor _ _ _ W3 S2) as (l1' & tk' & zk' & l2' & Em' & L' & Fl' & Az').
  assert (Shx : shp x = zs) by (destruct A as [-> _]; destruct Az as [<- _]; rewrite Em in F3; apply Forall_app in F3; apply (Forall_inv (proj2 F3))).
  assert (Shy : shp y = zs) by (destruct A' as [-> _]; destruct Az' as [<- _]; rewrite Em' in F3; apply Forall_app in F3; apply (Forall_inv (proj2 F3))).
  assert (X1 : dat x ix = dat zk ix). { destruct (aeq_trans _ _ _ A (aeq_sym _ _ Az)) as [_ Q]. apply Q. rewrite Shx; auto. }
  assert (X2 : dat y ix = dat zk' ix). { destruct (aeq_trans _ _ _ A' (aeq_sym _ _ Az')) as [_ Q]. apply Q. rewrite Shy; auto. }
  rewrite X1, X2.
  assert (Key : forall a la ta za ra b lb tb zb rb, m3 = la ++ (ta, za) :: ra -> m3 = lb ++ (tb, zb) :: rb -> ta <= a -> List.Forall (fun p => b < fst p) rb -> a <= b -> (dat za ix <= dat zb ix)%Z).
  { clear - S3 Ri Ix. intros a la ta za ra b lb tb zb rb E1 E2 La Fb Lab. assert (I : In (ta, za) (lb ++ (tb, zb) :: rb)) by (rewrite <- E2, E1; apply in_or_app; simpl; auto). apply in_app_or in I. destruct I as [I|[I|I]].
    - rewrite E2 in Ri. apply rising_app in Ri. destruct Ri as (_ & _ & Q). apply (Q _ _ I (or_introl eq_refl) ix Ix).
    - injection I as _ <-. lia.
    - rewrite Forall_forall in Fb. specialize (Fb _ I). cbn [fst] in Fb. lra. }
  split; intro Lst; [apply (Key s l1 tk zk l2 t l1' tk' zk' l2')|apply (Key t l1' tk' zk' l2' s l1 tk zk l2)]; auto.
Qed.

(** *** arguments of the binomial generator *)
Lemma ret_agrees binomial' s : (forall n p sh g, valid_trials n p sh -> binomial n p sh g = binomial' n p sh g) ->
  agreeing inv_counts (ret s) (retrieve1 id out (poisson_inside binomial') rtol s).
Proof using Po Bi rtol_pos.
  intros Ag st I. split; [|apply counts_step; auto]. destruct st as [m g]. destruct I as [(Nm & S & F) Ri]. cbn [fst] in *.
  destruct (sorted_split m s S) as (l1 & l2 & -> & F1 & F2). destruct l1 as [|p1 l1'].
  - destruct l2 as [|[t2 z2] l3]; [elim Nm; auto|]. cbn [app] in *. destruct (memory_snoc ((t2, z2) :: l3)) as (l & [tl zl] & El); [discriminate|]. rewrite !(retrieve1_start _ _ _ _ t2 z2 l3 l tl zl s g F2 El). auto.
  - destruct (memory_snoc (p1 :: l1')) as (l & [tk zk] & El); [discriminate|]. rewrite El in *. clear p1 l1' El. assert (L : tk <= s) by (apply Forall_app in F1; destruct F1 as [_ F1]; inversion F1; auto). destruct l2 as [|[t2 z2] l3].
    + rewrite app_nil_r in *. rewrite !retrieve1_end by auto. auto.
    + rewrite <- app_assoc in *. cbn [app] in *. rewrite !retrieve1_between by auto. destruct (isclose rtol s tk) eqn:C; auto. apply Forall_app in F. destruct F as [_ F]. assert (X1 := Forall_inv F). assert (X2 := Forall_inv (Forall_inv_tail F)). cbn [snd] in X1, X2.
      assert (Lz : counts_le zs zk z2). { apply rising_app in Ri. destruct Ri as (_ & Ri & _). inversion Ri as [|? ? _ Q]; subst. apply (Forall_inv Q). }
      assert (Lt : tk < s) by (apply (not_close_lt rtol rtol_pos); auto; apply isclose_R_false; auto). assert (L2 : s < t2) by apply (Forall_inv F2).
      replace (poisson_inside binomial' zk z2 tk t2 s g) with (ins zk z2 tk t2 s g); auto. unfold poisson_inside, dbind. destruct (dres (all_equal Z.eqb zk z2) g) as [[[]|e] g1]; auto. destruct (aop_same Z.sub z2 zk zs X2 X1) as (n & En & Sn & Hn). unfold dres. rewrite En.
      rewrite Ag; auto. split; auto. split.
      * change (nsub (V := R)) with Rminus. change (ndiv (V := R)) with Rdiv. split; [apply Rmult_lt_0_compat; [lra|apply Rinv_0_lt_compat; lra]|]. apply (Rmult_lt_reg_r (t2 - tk)); [lra|]. replace ((s - tk)/(t2 - tk) * (t2 - tk)) with (s - tk) by (field; lra). lra.
      * intros ix I. rewrite Sn in I. rewrite Hn by auto. specialize (Lz ix I). lia.
Qed.
Lemma call_agrees binomial' t dt : (forall n p sh g, valid_trials n p sh -> binomial n p sh g = binomial' n p sh g) ->
  agreeing inv_counts (eval t dt) (true_poisson poisson binomial' paths vshape lam rtol t dt).
Proof using Po Bi rtol_pos.
  intro Ag. assert (Rt : forall s, agreeing inv_counts (retrieve id out ins rtol 0%Z zs s) (retrieve id out (poisson_inside binomial') rtol 0%Z zs s)).
  { intro s. unfold retrieve. apply agreeing_bind; [|intro; apply (agreeing_pure inv_counts (Ok (assembled 0%Z (shp s) zs a)))]. apply agreeing_each. intro i. apply agreeing_bind; [apply ret_agrees; auto|intro; apply agreeing_pure]. }
  unfold true_poisson, true_call. fold zs. destruct dt as [dt|]; [|apply Rt]. apply agreeing_bind; [apply agreeing_pure|]. intros [t' dt']. apply agreeing_bind; [apply agreeing_pure|]. intro s. apply agreeing_bind; [apply Rt|]. intro x. apply agreeing_bind; [apply Rt|]. intro y. apply agreeing_pure.
Qed.
(** all calls to the binomial generator have valid arguments: what it does with other arguments makes no difference *)
Theorem C23_trials binomial' calls : (forall n p sh g, valid_trials n p sh -> binomial n p sh g = binomial' n p sh g) ->
  run (fun c => eval (fst c) (snd c)) calls (m0, g0) = run (fun c => true_poisson poisson binomial' paths vshape lam rtol (fst c) (snd c)) calls (m0, g0).
Proof using Po Bi rtol_pos Start.
  intro Ag. generalize (counts_start g0). generalize (m0, g0). induction calls as [|c l IH]; intros st I; [reflexivity|]. cbn [run]. destruct (call_agrees binomial' (fst c) (snd c) Ag st I) as [E J]. rewrite <- E. destruct (eval (fst c) (snd c) st) as [r st1]. cbn [snd] in J. rewrite (IH st1 J). auto.
Qed.
End Poisson.
