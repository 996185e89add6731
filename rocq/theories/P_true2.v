(** C21: Brownian motion by true_wiener_source, whatever the order of evaluation. *)
From Coq Require Import List Arith Bool Lia ZArith Reals Lra Sorted.
From Verif Require Import Base BaseNum BaseArr BaseNd BaseIdx M_process M_source M_true S_process S_source S_mc S_true L_nd L_sdes L_process L_process2 L_source L_true L_true2 L_true3 L_true4 P_source P_source2.
Import ListNotations.
Local Open Scope R_scope.

Lemma drawn_ext {A G} (f : G -> res A * G) n g x y g' : drawn f n g x g' -> (forall i, (i < n)%nat -> x i = y i) -> drawn f n g y g'.
Proof. induction 1 as [|n g x g1 g2 D IH E]; intro H; [constructor|]. econstructor; [apply IH; intros; apply H; lia|]. rewrite E, H by lia. auto. Qed.
Lemma drawn_det {A G} (f : G -> res A * G) n g x g' : drawn f n g x g' -> forall y g1, drawn f n g y g1 -> g1 = g' /\ forall i, (i < n)%nat -> x i = y i.
Proof.
  induction 1 as [|n g x g1 g2 D IH E]; intros y g3 D'; inversion D'; subst; [split; auto; intros; lia|]. match goal with H : drawn _ _ _ y _ |- _ => destruct (IH _ _ H) as [-> Q] end. rewrite E in *.
  match goal with H : (Ok _, _) = (Ok _, _) |- _ => injection H as Ex Eg end. split; auto. intros i L. destruct (Nat.eq_dec i n) as [->|]; auto. apply Q. lia.
Qed.

Lemma run_step {A B S} (f : A -> S -> res B * S) a l st r st1 rs st2 : f a st = (r, st1) -> run f l st1 = (rs, st2) -> run f (a :: l) st = (r :: rs, st2).
Proof. intros E1 E2. cbn [run]. rewrite E1. cbv beta iota. rewrite E2. auto. Qed.

Section Wiener.
Context {G : Type}.
Variable normal : list nat -> G -> res (arr R) * G.
Variable mvnormal : arr R -> list nat -> G -> res (arr R) * G.
Variable inv : arr R -> res (arr R).
Variables (paths : nat) (vshape : list nat) (corr : param R) (t0 : R).
Hypothesis N : normal_ok normal.
Hypothesis MN : mvnormal_ok mvnormal.
Hypothesis CC : constant_corr vshape corr.
Variable z0 : arr R.
Variable rtol : R.
Hypothesis rtol_pos : 0 <= rtol.
Let zs := vshape ++ [paths].
Local Notation unit_draw := (dw normal mvnormal paths vshape corr 0 1).
Local Notation ret := (retrieve1 (fun w : arr R => w) (wiener_outside normal mvnormal paths vshape corr t0) (wiener_inside normal mvnormal inv paths vshape corr t0) rtol).
Local Notation rarr := (retrieve (fun w : arr R => w) (wiener_outside normal mvnormal paths vshape corr t0) (wiener_inside normal mvnormal inv paths vshape corr t0) rtol 0 zs).
Local Notation eval := (true_wiener normal mvnormal inv paths vshape corr t0 rtol).
Local Notation state := (@memory R (arr R) * G)%type.

(** computations that keep values what they should be, with times that do not depend on the draws *)
Definition covers {A B} (P : A -> Prop) (Q : B -> Prop) (k : A -> state -> res B * state) : Prop :=
  forall cs n, gram t0 cs n -> exists cs' n', gram t0 cs' n' /\
    forall a g0 x g m, P a -> drawn unit_draw n g0 x g -> rep paths vshape z0 cs n x m -> exists b x' g' m',
      k a (m, g) = (Ok b, (m', g')) /\ Q b /\ drawn unit_draw n' g0 x' g' /\ rep paths vshape z0 cs' n' x' m'.
Lemma covers_bind {A B C} (P : A -> Prop) (Q : B -> Prop) (T : C -> Prop) k h : covers P Q k -> covers (fun p => P (fst p) /\ Q (snd p)) T (fun p => h (fst p) (snd p)) -> covers P T (fun a => dbind (k a) (h a)).
Proof.
  intros H1 H2 cs n K. destruct (H1 cs n K) as (cs1 & n1 & K1 & F1). destruct (H2 cs1 n1 K1) as (cs2 & n2 & K2 & F2). exists cs2, n2. split; auto. intros a g0 x g m Pa D Rp.
  destruct (F1 a g0 x g m Pa D Rp) as (b & x1 & g1 & m1 & E1 & Qb & D1 & R1). destruct (F2 (a, b) g0 x1 g1 m1 (conj Pa Qb) D1 R1) as (c & x2 & g2 & m2 & E2 & Tc & D2 & R2). exists c, x2, g2, m2. split; auto. unfold dbind. rewrite E1. exact E2.
Qed.
Lemma covers_ret {A B} (P : A -> Prop) (Q : B -> Prop) (f : A -> res B) : (forall a, P a -> exists b, f a = Ok b /\ Q b) -> covers P Q (fun a => dres (f a)).
Proof. intros H cs n K. exists cs, n. split; auto. intros a g0 x g m Pa D Rp. destruct (H a Pa) as (b & E & Qb). exists b, x, g, m. unfold dres. rewrite E. auto. Qed.
Lemma rep_wf cs n x m : gram t0 cs n -> rep paths vshape z0 cs n x m -> wf (fun w : arr R => w) zs m.
Proof.
  intros K Rp. split; [|split].
  - intros ->. inversion Rp; subst. destruct (g_start _ _ _ K).
  - rewrite (rep_fst _ _ _ _ _ _ _ Rp). apply (g_sorted _ _ _ K).
  - clear K. induction Rp as [|p q l l' (_ & S & _) Rp IH]; constructor; auto.
Qed.
Lemma covers_query {A} (P : A -> Prop) s : covers P (fun v : arr R => shp v = zs) (fun _ => ret s).
Proof using N MN CC rtol_pos.
  intros cs n K. destruct (wiener_query normal mvnormal inv paths vshape corr t0 N MN CC z0 rtol rtol_pos cs n s K) as (cs' & n' & K' & F). exists cs', n'. split; auto. intros a g0 x g m _ D Rp.
  assert (W := rep_wf _ _ _ _ K Rp). destruct (F x m g Rp) as (v & m' & [(-> & E & R')|(-> & y & g' & Ey & E & R')]).
  - exists v, x, g, m'. split; auto. split; auto. apply (query_shape _ _ _ _ _ _ (wiener_disciplined normal mvnormal inv paths vshape corr t0 N) _ _ _ _ _ _ W E).
  - exists v, (xset x n y), g', m'. split; auto. split; [apply (query_shape _ _ _ _ _ _ (wiener_disciplined normal mvnormal inv paths vshape corr t0 N) _ _ _ _ _ _ W E)|]. split; auto.
    econstructor; [apply drawn_ext with (x := x); [exact D|]|].
    + intros i L. unfold xset. destruct (Nat.eqb_spec i n); [lia|auto].
    + rewrite Ey. unfold xset. rewrite Nat.eqb_refl. auto.
Qed.
Lemma covers_weaken {A B} (P P' : A -> Prop) (Q Q' : B -> Prop) k : covers P Q k -> (forall a, P' a -> P a) -> (forall b, Q b -> Q' b) -> covers P' Q' k.
Proof. intros H H1 H2 cs n K. destruct (H cs n K) as (cs' & n' & K' & F). exists cs', n'. split; auto. intros a g0 x g m Pa D Rp. destruct (F a g0 x g m (H1 a Pa) D Rp) as (b & x' & g' & m' & E & Qb & R'). exists b, x', g', m'. auto. Qed.
Lemma covers_item {A} (P : A -> Prop) s : covers P (fun _ : arr R => True) (fun _ => dbind (ret s) (fun v => dres (broadcast_to v zs))).
Proof using N MN CC rtol_pos.
  apply covers_bind with (Q := fun v : arr R => shp v = zs); [apply covers_query|]. apply (covers_ret _ _ (fun p : A * arr R => broadcast_to (snd p) zs)). intros [a v] [_ Sv]. destruct (broadcast_shape zs v Sv) as (u & E & _). eauto.
Qed.
Lemma covers_each {A I} (P : A -> Prop) (f : I -> R) (l : list I) : covers P (fun _ => True) (fun _ => each (fun i => dbind (ret (f i)) (fun v => dres (broadcast_to v zs))) l).
Proof using N MN CC rtol_pos.
  revert A P. induction l as [|i l IH]; intros A P.
  - apply (covers_ret P _ (fun _ => Ok [])). eauto.
  - cbn [each]. apply (covers_bind P (fun _ => True) (fun _ => True) (fun _ => dbind (ret (f i)) (fun v => dres (broadcast_to v zs))) (fun _ b => dbind (each (fun i => dbind (ret (f i)) (fun v => dres (broadcast_to v zs))) l) (fun r => dret ((i, b) :: r)))); [apply covers_item|].
    apply (covers_bind (fun p : A * arr R => P (fst p) /\ True) (fun _ => True) (fun _ => True) (fun _ => each (fun i => dbind (ret (f i)) (fun v => dres (broadcast_to v zs))) l) (fun p r => dret ((i, snd p) :: r))); [apply IH|].
    apply (covers_ret _ _ (fun p : (A * arr R) * list (I * arr R) => Ok ((i, snd (fst p)) :: snd p))). eauto.
Qed.
Lemma covers_retrieve {A} (P : A -> Prop) t : covers P (fun v : arr R => shp v = shp t ++ zs) (fun _ => rarr t).
Proof using N MN CC rtol_pos.
  unfold retrieve. apply (covers_bind P (fun _ => True) _ (fun _ => each (fun i => dbind (ret (dat t i)) (fun v => dres (broadcast_to v zs))) (ndindex (shp t))) (fun _ l => dret (assembled 0 (shp t) zs l))); [apply covers_each|].
  apply (covers_ret _ _ (fun p : A * list (list nat * arr R) => Ok (assembled 0 (shp t) zs (snd p)))). intros [a l] _. eauto.
Qed.
Lemma covers_call c : well_shaped c -> covers (fun _ : unit => True) (fun _ : arr R => True) (fun _ => eval (fst c) (snd c)).
Proof using N MN CC rtol_pos.
  destruct c as [t [dt|]]; unfold well_shaped, true_wiener, true_call; cbn [fst snd]; intro W.
  - destruct (bshape (shp t) (shp dt)) as [w|] eqn:B; [|tauto]. set (t' := mkArr w (bget t)). set (dt' := mkArr w (bget dt)). destruct (aop_same nadd t' dt' w eq_refl eq_refl) as (s & Es & Ss & _).
    assert (Q : covers (fun _ : unit => True) (fun _ : arr R => True) (fun _ => dbind (rarr s) (fun x => dbind (rarr t') (fun y => dres (aop nsub x y))))).
    { apply (covers_bind (fun _ : unit => True) (fun v : arr R => shp v = w ++ zs) _ (fun _ => rarr s) (fun _ x => dbind (rarr t') (fun y => dres (aop nsub x y)))).
      - apply (covers_weaken _ _ _ _ _ (covers_retrieve (fun _ : unit => True) s)); [auto|]. intros b E. rewrite Ss in E. exact E.
      - apply (covers_bind (fun p : unit * arr R => True /\ shp (snd p) = w ++ zs) (fun v : arr R => shp v = w ++ zs) _ (fun _ => rarr t') (fun p y => dres (aop nsub (snd p) y))); [apply (covers_retrieve _ t')|].
        apply (covers_ret _ _ (fun q : (unit * arr R) * arr R => aop nsub (snd (fst q)) (snd q))). intros [[u x] y] [[_ S1] S2]. cbn [fst snd] in *. destruct (aop_same nsub x y _ S1 S2) as (v & Ev & _). eauto. }
    intros cs n K. destruct (Q cs n K) as (cs' & n' & K' & F). exists cs', n'. split; auto. intros a g0 x g m Pa D Rp. destruct (F a g0 x g m Pa D Rp) as (b & x' & g' & m' & E & R'). exists b, x', g', m'. split; [|exact R'].
    unfold dbind at 1, dres at 1, broadcast2. rewrite B. fold t' dt'. unfold dbind at 1, dres at 1. rewrite Es. exact E.
  - apply (covers_weaken _ _ _ _ _ (covers_retrieve (fun _ : unit => True) t)); auto.
Qed.
Lemma run_covers l : forall cs n, gram t0 cs n -> exists cs' n', gram t0 cs' n' /\
    forall g0 x g m, drawn unit_draw n g0 x g -> rep paths vshape z0 cs n x m -> exists rs x' g' m',
      run (fun c => eval (fst c) (snd c)) l (m, g) = (rs, (m', g')) /\ Forall2 (fun c r => well_shaped c -> exists v, r = Ok v) l rs /\ drawn unit_draw n' g0 x' g' /\ rep paths vshape z0 cs' n' x' m'.
Proof using N MN CC rtol_pos.
  induction l as [|c l IH]; intros cs n K.
  - exists cs, n. split; auto. intros g0 x g m D Rp. exists [], x, g, m. repeat split; auto.
  - assert (Dc : well_shaped c \/ ~ well_shaped c /\ forall st, eval (fst c) (snd c) st = (Err ValueError, st)).
    { destruct c as [t [dt|]]; unfold well_shaped; cbn [fst snd]; auto. destruct (bshape (shp t) (shp dt)) eqn:B; [left; discriminate|right]. split; [tauto|]. intro st. unfold true_wiener, true_call, dbind at 1, dres at 1, broadcast2. rewrite B. reflexivity. }
    destruct Dc as [Wc|[Nc Fc]].
    + destruct (covers_call c Wc cs n K) as (cs1 & n1 & K1 & F1). destruct (IH cs1 n1 K1) as (cs2 & n2 & K2 & F2). exists cs2, n2. split; auto. intros g0 x g m D Rp.
      destruct (F1 tt g0 x g m I D Rp) as (b & x1 & g1 & m1 & E1 & _ & D1 & R1). destruct (F2 g0 x1 g1 m1 D1 R1) as (rs & x2 & g2 & m2 & E2 & Hr & D2 & R2). exists (Ok b :: rs), x2, g2, m2. split; [exact (run_step _ c l _ _ _ _ _ E1 E2)|]. split; [constructor; eauto|auto].
    + destruct (IH cs n K) as (cs2 & n2 & K2 & F2). exists cs2, n2. split; auto. intros g0 x g m D Rp. destruct (F2 g0 x g m D Rp) as (rs & x2 & g2 & m2 & E2 & Hr & D2 & R2). exists (Err ValueError :: rs), x2, g2, m2. split; [exact (run_step _ c l _ _ _ _ _ (Fc _) E2)|]. split; [constructor; [tauto|auto]|auto].
Qed.
Lemma gram_start : gram t0 [(t0, fun _ => 0)] 0.
Proof.
  constructor; cbn [map fst].
  - repeat constructor.
  - simpl; auto.
  - intros p i [<-|[]] _. reflexivity.
  - intros p q [<-|[]] [<-|[]]. cbn [fst snd]. rewrite kernel_self. replace (t0 - t0) with 0 by ring. rewrite Rabs_R0. reflexivity.
Qed.
(** the values stored after any evaluations are z0 plus linear combinations of successive unit increments, with coefficients
    that depend on the times only; the scalar products of coefficients are covariances of Brownian motion.
    Evaluations do not fail, save for arguments that do not broadcast *)
Theorem C21_brownian (calls : list (arr R * option (arr R))) : exists n cs,
  (forall s c t c', In (s, c) cs -> In (t, c') cs -> lincomb n c c' = brownian_cov t0 s t) /\
  (forall g, exists x g', drawn unit_draw n g x g') /\
  forall m0 g0 x g, true_new (fun w => w) zs t0 z0 = Ok m0 -> drawn unit_draw n g0 x g -> exists rs m,
    run (fun c => eval (fst c) (snd c)) calls (m0, g0) = (rs, (m, g)) /\ Forall2 (fun c r => well_shaped c -> exists v, r = Ok v) calls rs /\
    Forall2 (fun p q => fst p = fst q /\ shp (snd q) = zs /\ forall ix, inb zs ix -> dat (snd q) ix = bget z0 ix + lincomb n (snd p) (fun i => dat (x i) ix)) cs m.
Proof using N MN CC rtol_pos.
  destruct (run_covers calls _ _ gram_start) as (cs & n & K & F). exists n, cs. split; [|split].
  - intros s c t c' I J. apply (g_cov _ _ _ K (s, c) (t, c') I J).
  - intro g. clear F K. induction n as [|n (x & g1 & D)]; [exists (fun _ => z0), g; constructor|]. destruct (dw_unit normal mvnormal paths vshape corr N MN CC g1) as (y & g2 & E & _). exists (xset x n y), g2. econstructor.
    + apply drawn_ext with (x := x); [exact D|]. intros i L. unfold xset. destruct (Nat.eqb_spec i n); [lia|auto].
    + rewrite E. unfold xset. rewrite Nat.eqb_refl. auto.
  - intros m0 g0 x g E D. unfold true_new, broadcast_to in E. destruct (can (shp z0) zs) eqn:C; [|discriminate]. cbv beta iota delta [rbind] in E. injection E as <-.
    destruct (F g0 x g0 [(t0, mkArr zs (bget z0))]) as (rs & x' & g' & m & E & H1 & D' & Rp); [constructor| |].
    { constructor; [|constructor]. split; auto. split; auto. intros ix I. cbn [fst snd dat]. unfold lincomb. simpl. ring. }
    destruct (drawn_det _ _ _ _ _ D' _ _ D) as [<- X]. exists rs, m. split; auto. split; auto. clear - Rp X. induction Rp as [|p q l l' (E & S & H) Rp IH]; constructor; auto. split; auto. split; auto. intros ix I. rewrite H by auto. f_equal. apply lincomb_ext; auto. intros i L. rewrite X; auto.
Qed.

(** *** covariances *)
Variables (Omega : Type) (E : (Omega -> R) -> R).
Hypothesis E_ext : forall X Y, (forall o, X o = Y o) -> E X = E Y.
Hypothesis E_add : forall X Y, E (fun o => X o + Y o) = E X + E Y.
Hypothesis E_scale : forall a X, E (fun o => a * X o) = a * E X.
Lemma E_zero : E (fun _ => 0) = 0.
Proof using E_ext E_scale. rewrite (E_ext _ (fun o => 0 * 0)) by (intro; ring). rewrite (E_scale 0 (fun _ => 0)). ring. Qed.
Lemma E_lincomb n c (x : nat -> Omega -> R) (Y : Omega -> R) : E (fun o => lincomb n c (fun i => x i o) * Y o) = lincomb n c (fun i => E (fun o => x i o * Y o)).
Proof using E_ext E_add E_scale.
  induction n.
  - unfold lincomb. cbn [seq map total fold_right]. rewrite (E_ext _ (fun _ => 0)) by (intro; simpl; ring). rewrite E_zero. reflexivity.
  - rewrite lincomb_S, <- IHn, <- E_scale, <- E_add. apply E_ext. intro o. rewrite lincomb_S. ring.
Qed.
Lemma E_product n c c' (x y : nat -> Omega -> R) k : (forall i j, E (fun o => x i o * y j o) = if (i =? j)%nat then k else 0) ->
  E (fun o => lincomb n c (fun i => x i o) * lincomb n c' (fun i => y i o)) = lincomb n c c' * k.
Proof using E_ext E_add E_scale.
  intro H. rewrite E_lincomb. assert (Q : forall i, (i < n)%nat -> E (fun o => x i o * lincomb n c' (fun j => y j o)) = c' i * k).
  { intros i L. rewrite (E_ext _ (fun o => lincomb n c' (fun j => y j o) * x i o)) by (intro; ring). rewrite E_lincomb. clear - H L E_ext. unfold lincomb. revert L. change (total (map (fun j => c' j * E (fun o => y j o * x i o)) (seq 0 n))) with (sumn (fun j => c' j * E (fun o => y j o * x i o)) n). intro L.
    rewrite (sumn_one _ n i L).
    - rewrite (E_ext _ (fun o => x i o * y i o)) by (intro; ring). rewrite H, Nat.eqb_refl. auto.
    - intros j Lj Nj. rewrite (E_ext _ (fun o => x i o * y j o)) by (intro; ring). rewrite H. destruct (Nat.eqb_spec i j); [congruence|ring]. }
  rewrite (lincomb_ext n c _ c (fun i => c' i * k)) by auto. clear. induction n; [unfold lincomb; simpl; ring|]. rewrite !lincomb_S, IHn. ring.
Qed.
(** given unit increments with zero mean and covariances k, independent of each other, the stored values have mean z0 and covariances k times those of
    Brownian motion *)
Theorem C21_covariance (calls : list (arr R * option (arr R))) m0 (g0 : Omega -> G) (x : Omega -> nat -> arr R) (m : Omega -> list (R * arr R)) s t (ws wt : Omega -> arr R) ix jx k :
  true_new (fun w => w) zs t0 z0 = Ok m0 ->
  (forall n o, exists g, drawn unit_draw n (g0 o) (x o) g) ->
  (forall i, E (fun o => dat (x o i) ix) = 0) ->
  (forall i j, E (fun o => dat (x o i) ix * dat (x o j) jx) = if (i =? j)%nat then k else 0) ->
  (forall o, fst (snd (run (fun c => eval (fst c) (snd c)) calls (m0, g0 o))) = m o) ->
  (forall o, In (s, ws o) (m o)) -> (forall o, In (t, wt o) (m o)) -> inb zs ix -> inb zs jx ->
  E (fun o => dat (ws o) ix - bget z0 ix) = 0 /\ E (fun o => (dat (ws o) ix - bget z0 ix) * (dat (wt o) jx - bget z0 jx)) = k * brownian_cov t0 s t.
Proof using N MN CC rtol_pos E_ext E_add E_scale.
  intros M0 D E0 EK Em Is It Ix Jx. destruct (run_covers calls _ _ gram_start) as (cs & n & K & F).
  assert (Q : forall o, Forall2 (fun p q => fst p = fst q /\ shp (snd q) = zs /\ forall ix, inb zs ix -> dat (snd q) ix = bget z0 ix + lincomb n (snd p) (fun i => dat (x o i) ix)) cs (m o)).
  { intro o. unfold true_new, broadcast_to in M0. destruct (can (shp z0) zs) eqn:C; [|discriminate]. cbv beta iota delta [rbind] in M0. injection M0 as M0.
    destruct (F (g0 o) (x o) (g0 o) [(t0, mkArr zs (bget z0))]) as (rs & x' & g' & m1 & E1 & H1 & D' & Rp); [constructor| |].
    { constructor; [|constructor]. split; auto. split; auto. intros ix' I. cbn [fst snd dat]. unfold lincomb. simpl. ring. }
    destruct (D n o) as (g & Dg). destruct (drawn_det _ _ _ _ _ D' _ _ Dg) as [_ X]. pose proof (f_equal (fun p => fst (snd p)) E1) as E2. cbn [fst snd] in E2. subst m0. pose proof (eq_trans (eq_sym (Em o)) E2) as E3. rewrite E3. clear - Rp X. induction Rp as [|p q l l' (E & S & H) Rp IH]; constructor; auto. split; auto. split; auto. intros ix I. rewrite H by auto. f_equal. apply lincomb_ext; auto. intros i L. rewrite X; auto. }
  assert (Uniq : forall u c c', In (u, c) cs -> In (u, c') cs -> c = c').
  { intros u c c' I J. apply in_split in I. destruct I as (l1 & l2 & ->). destruct (sorted_app_cons _ _ _ _ (g_sorted _ _ _ K)) as [F1 F2]. rewrite Forall_forall in F1, F2. apply in_app_or in J. destruct J as [J|[J|J]].
    - specialize (F1 _ J). cbn [fst] in F1. lra.
    - congruence.
    - specialize (F2 _ J). cbn [fst] in F2. lra. }
  assert (V : forall u (w : Omega -> arr R), (forall o, In (u, w o) (m o)) -> forall o, exists c, In (u, c) cs /\ forall jx, inb zs jx -> dat (w o) jx = bget z0 jx + lincomb n c (fun i => dat (x o i) jx)).
  { intros u w I o. specialize (Q o). specialize (I o). clear - Q I. induction Q as [|p q l l' (E & S & H) Q IH]; [destruct I|]. destruct I as [->|I].
    - destruct p as [u' c]. cbn [fst snd] in *. subst u'. exists c. split; [simpl; auto|exact H].
    - destruct (IH I) as (c & J & Hc). exists c. split; [simpl; auto|auto]. }
  (* a coefficient that serves all outcomes, or no outcome at all *)
  assert (W : forall u (w : Omega -> arr R), (forall o, In (u, w o) (m o)) -> (Omega -> False) \/ exists c, In (u, c) cs /\ forall o jx, inb zs jx -> dat (w o) jx = bget z0 jx + lincomb n c (fun i => dat (x o i) jx)).
  { intros u w I. destruct (List.in_dec Req_EM_T u (map fst cs)) as [J|J].
    - right. apply in_map_iff in J. destruct J as ([u' c] & Eu & J). cbn [fst] in Eu. subst u'. exists c. split; auto. intros o jx' I'. destruct (V u w I o) as (c' & J' & Hc). rewrite (Uniq u c c' J J'). apply Hc; auto.
    - left. intro o. destruct (V u w I o) as (c & J' & _). apply J. apply (in_map fst _ _ J'). }
  assert (Z : (Omega -> False) -> forall X, E X = 0). { intros No X. rewrite (E_ext X (fun _ => 0)) by (intro o; destruct (No o)). apply E_zero. }
  destruct (W s ws Is) as [No|(c & Ic & Hc)].
  { rewrite !(Z No). split; auto. specialize (EK 0%nat 0%nat). rewrite (Z No) in EK. cbn [Nat.eqb] in EK. rewrite <- EK. ring. }
  destruct (W t wt It) as [No|(c' & Ic' & Hc')].
  { rewrite !(Z No). split; auto. specialize (EK 0%nat 0%nat). rewrite (Z No) in EK. cbn [Nat.eqb] in EK. rewrite <- EK. ring. }
  split.
  - rewrite (E_ext _ (fun o => lincomb n c (fun i => dat (x o i) ix) * 1)) by (intro o; rewrite Hc by auto; ring). rewrite (E_lincomb n c (fun i o => dat (x o i) ix) (fun _ => 1)).
    rewrite (lincomb_ext n c _ c (fun _ => 0)); auto; [|intros i _; rewrite (E_ext _ (fun o => dat (x o i) ix)) by (intro; ring); auto]. clear. induction n; [reflexivity|]. rewrite lincomb_S, IHn. ring.
  - rewrite (E_ext _ (fun o => lincomb n c (fun i => dat (x o i) ix) * lincomb n c' (fun i => dat (x o i) jx))) by (intro o; rewrite Hc, Hc' by auto; ring).
    rewrite (E_product n c c' (fun i o => dat (x o i) ix) (fun i o => dat (x o i) jx) k EK). pose proof (g_cov _ _ _ K (s, c) (t, c') Ic Ic') as Q2. cbn [fst snd] in Q2. rewrite Q2. ring.
Qed.
End Wiener.
