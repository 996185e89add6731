(** Lemmas on the montecarlo class: failing updates. *)
From Coq Require Import String List Arith Bool Lia ZArith Reals Lra.
From Verif Require Import Base BaseNum BaseArr BaseNd M_mc S_mc L_nd L_mc L_mc2 L_mc3.
Import ListNotations.
Local Open Scope R_scope.

Section Fail.
Variable auto : string -> list R -> option (R * R) -> res nat.

Definition bad (o : option (list R)) : Prop := match o with None => True | Some e => sorted_edges e = false end.
Definition bricked (a : mc R) : Prop := exists b ix, mc_bins a = BObj b /\ inb (shp b) ix /\ bad (dat b ix).

Lemma first_hist_err v M y r args todo : forall b c o, shp y = (v ++ [M])%list -> (forall ix, In ix todo -> inb v ix) -> NoDup todo ->
  forall b' c' o' e, first_hist auto 0 M y r args todo b c o = ((b', c', o'), Err e) ->
  shp b' = shp b /\ exists ix, In ix todo /\ dat b' ix = dat b ix /\ np_histogram auto (row y ix) (args ix) r = Err e.
Proof.
  induction todo as [|i todo IH]; intros b c o S HI ND b' c' o' e H; cbn [first_hist] in H; [discriminate|].
  inversion ND as [|? ? NI ND']; subst. destruct (ravel_row y v M i S) as (z & EZ & RZ); [apply HI; simpl; auto|].
  rewrite EZ in H. cbv beta iota delta [rbind] in H. rewrite RZ in H. destruct (np_histogram auto (row y i) (args i) r) as [[counts edges]|] eqn:EH.
  - apply IH in H; auto; [|intros; apply HI; simpl; auto]. destruct H as (S1 & ix & IX & D & E). split; [auto|]. exists ix. split; [simpl; auto|]. split; [|auto].
    rewrite D. simpl. destruct (list_eq_dec Nat.eq_dec ix i); [subst; contradiction|auto].
  - injection H as <- <- <- <-. split; [auto|]. exists i. simpl. auto.
Qed.
Lemma nonempty_ndindex v : (exists ix, inb v ix) -> exists i t, ndindex v = i :: t.
Proof. intros [ix H]. apply in_ndindex in H. destruct (ndindex v); [destruct H|eauto]. Qed.
Lemma edges_err l e x r : np_histogram auto l (HEdges e) r = Err x -> sorted_edges e = false.
Proof. simpl. unfold hist_edges. destruct (sorted_edges e); [discriminate|auto]. Qed.

Lemma bad_run v M a y args r a' e : shp y = (v ++ [M])%list -> (exists D0, moments_inv v M D0 a) -> first_args a v args r ->
  mc_update_histogram auto true 0 y a = (a', Err e) ->
  exists b0 b' c' o' ix, mc_update_histogram auto true 0 y a = (set_hist a (BObj b') c' o', Err e) /\ shp b0 = v /\
    first_hist auto 0 M y r args (ndindex v) b0 (mkArr v (fun _ => None)) (mkArr v (fun _ => 0%Z)) = ((b', c', o'), Err e) /\
    b0 = match mc_bins a with BArr m => mkArr v (fun i => Some (row m i)) | BObj m => m | _ => mkArr v (fun _ => None) end /\
    shp b' = v /\ inb v ix /\ dat b' ix = dat b0 ix /\ np_histogram auto (row y ix) (args ix) r = Err e.
Proof.
  intros SY HM FA H.
  set (b0 := match mc_bins a with BArr m => mkArr v (fun i => Some (row m i)) | BObj m => m | _ => mkArr v (fun _ => None) end).
  assert (SB : shp b0 = v). { unfold b0, first_args in *. destruct (mc_bins a); auto. apply FA. }
  assert (RUN : mc_update_histogram auto true 0 y a = match first_hist auto 0 M y r args (ndindex v) b0 (mkArr v (fun _ => None)) (mkArr v (fun _ => 0%Z)) with
    ((b, c, o), r) => (set_hist a (BObj b) c o, match r with Ok _ => hist_check 0 M v c o | Err e => Err e end) end).
  { destruct HM as [D0 HM]. destruct (moments_head _ _ _ _ HM) as (m0 & tl & EM & S0). unfold b0, mc_update_histogram, first_args in *.
    rewrite EM, S0, SY, last_snoc. destruct (mc_bins a) as [|n|s|m|m].
    - contradiction.
    - destruct FA as [-> HE]. rewrite (first_hist_ext auto 0 M y (mc_range a) args (fun _ => HInt n)) by auto. reflexivity.
    - destruct FA as [-> HE]. rewrite (first_hist_ext auto 0 M y (mc_range a) args (fun _ => HStr s)) by auto. reflexivity.
    - destruct FA as (-> & [k SM] & HE). rewrite SM, removelast_snoc, shape_eqb_refl. replace (Nat.eqb (List.length (v ++ [k])) 0) with false by (symmetry; apply Nat.eqb_neq; rewrite app_length; simpl; lia).
      cbn [negb andb]. rewrite (first_hist_ext auto 0 M y None args (fun i => HEdges (row m i))) by auto. reflexivity.
    - destruct FA as (-> & SM & HE). rewrite SM, shape_eqb_refl.
      rewrite (first_hist_ext auto 0 M y None args (fun i => match dat m i with Some e => HEdges e | None => HObj end)) by auto. reflexivity. }
  destruct (first_hist auto 0 M y r args (ndindex v) b0 (mkArr v (fun _ => None)) (mkArr v (fun _ => 0%Z))) as [[[b c] o] [[]|e']] eqn:ER.
  - exfalso. pose proof ER as ER2. apply (first_hist_ok auto v M) in ER; auto; [|intros; apply in_ndindex; auto|apply NoDup_ndindex]. destruct ER as (_ & _ & _ & HT & _).
    destruct (first_histogram auto v M M (row y) a y args r SY) as (a2 & E & E2 & _); auto.
    { intros ix Hix. destruct (HT ix) as (x & _ & _ & X & _); [apply in_ndindex; auto|]. eauto. }
    congruence.
  - rewrite RUN in H. injection H as <- <-. pose proof ER as ER2. apply (first_hist_err v M) in ER; auto; [|intros; apply in_ndindex; auto|apply NoDup_ndindex].
    destruct ER as (S1 & ix & IX & D & E). exists b0, b, c, o, ix. split; [auto|]. split; [auto|]. split; [auto|]. split; [auto|]. split; [congruence|]. split; [apply in_ndindex; auto|]. auto.
Qed.

Lemma objs_fail v M y b c o : shp y = (v ++ [M])%list -> (exists ix, inb v ix) ->
  exists b' c' o', first_hist auto 0 M y None (fun _ => HObj) (ndindex v) b c o = ((b', c', o'), Err TypeError) /\ b' = b.
Proof.
  intros SY NE. destruct (nonempty_ndindex v NE) as (i & t & EN). rewrite EN. cbn [first_hist]. destruct (ravel_row y v M i SY) as (z & EZ & RZ); [apply in_ndindex; rewrite EN; simpl; auto|].
  rewrite EZ. cbv beta iota delta [rbind]. simpl. exists b, c, o. auto.
Qed.

(** a failing first update leaves a component without usable edges *)
Lemma fail_bricks v M a y a' e : shp y = (v ++ [M])%list -> (exists D0, moments_inv v M D0 a) -> (exists ix, inb v ix) ->
  mc_update_histogram auto true 0 y a = (a', Err e) -> bricked a'.
Proof.
  intros SY HM NE H.
  assert (NONE : forall (s : arr (option (list R))) c o, shp s = v -> (forall ix, dat s ix = None) -> a' = set_hist a (BObj s) c o -> bricked a').
  { intros s c o SS HD ->. destruct NE as [ix Hix]. exists s, ix. simpl. rewrite SS, HD. simpl. auto. }
  assert (FIRST : forall args r, first_args a v args r -> bricked a').
  { intros args r FA. destruct (bad_run v M a y args r a' e SY HM FA H) as (b0 & b' & c' & o' & ix & R & SB & _ & EB & S1 & IX & D & E).
    rewrite R in H. injection H as <-. exists b', ix. split; [reflexivity|]. rewrite S1, D, EB. split; [auto|]. clear EB D R.
    unfold first_args in FA. destruct (mc_bins a) as [|n|s|m|m]; simpl; auto.
    - destruct FA as (-> & _ & HE). rewrite HE in E. eapply edges_err; eauto.
    - destruct FA as (-> & _ & HE). rewrite HE in E. destruct (dat m ix); simpl; auto. eapply edges_err; eauto. }
  destruct (mc_bins a) as [|n|s|m|m] eqn:EB.
  - unfold mc_update_histogram in H. rewrite EB in H. discriminate.
  - apply (FIRST (fun _ => HInt n) (mc_range a)). unfold first_args. rewrite EB. auto.
  - apply (FIRST (fun _ => HStr s) (mc_range a)). unfold first_args. rewrite EB. auto.
  - destruct (shape_eqb (removelast (shp m)) v && negb (Nat.eqb (List.length (shp m)) 0)) eqn:X.
    + apply (FIRST (fun ix => HEdges (row m ix)) None). unfold first_args. rewrite EB. split; [auto|]. split; [|auto].
      apply andb_true_iff in X. destruct X as [X1 X2]. unfold shape_eqb in X1. destruct (list_eq_dec Nat.eq_dec (removelast (shp m)) v) as [<-|]; [|discriminate].
      exists (last (shp m) 0%nat). apply app_removelast_last. intro C. rewrite C in X2. discriminate.
    + destruct HM as [D0 HM]. destruct (moments_head _ _ _ _ HM) as (m0 & tl & EM & S0). unfold mc_update_histogram in H. rewrite EB, EM, S0, X in H.
      injection H as <- _. eapply NONE; [| |reflexivity]; reflexivity.
  - destruct (shape_eqb (shp m) v) eqn:X.
    + apply (FIRST (fun ix => match dat m ix with Some e => HEdges e | None => HObj end) None). unfold first_args. rewrite EB. split; [auto|]. split; [|auto].
      unfold shape_eqb in X. destruct (list_eq_dec Nat.eq_dec (shp m) v); [auto|discriminate].
    + destruct HM as [D0 HM]. destruct (moments_head _ _ _ _ HM) as (m0 & tl & EM & S0). unfold mc_update_histogram in H. rewrite EB, EM, S0, X, SY, last_snoc in H.
      destruct (shape_eqb (removelast (shp m)) v).
      * destruct (objs_fail v M y (mkArr v (fun _ => None)) (mkArr v (fun _ => None)) (mkArr v (fun _ => 0%Z)) SY NE) as (b' & c' & o' & E & ->). rewrite E in H.
        injection H as <- _. eapply NONE; [| |reflexivity]; reflexivity.
      * injection H as <- _. eapply NONE; [| |reflexivity]; reflexivity.
Qed.
(** and makes every later update fail *)
Lemma bricked_fails v M a y : shp y = (v ++ [M])%list -> (exists D0, moments_inv v M D0 a) -> (exists ix, inb v ix) -> bricked a ->
  exists a' e, mc_update_histogram auto true 0 y a = (a', Err e).
Proof.
  intros SY HM NE (m & ix & EB & IX & BD). destruct (mc_update_histogram auto true 0 y a) as [a' [[]|e]] eqn:H; [exfalso|eauto].
  destruct (shape_eqb (shp m) v) eqn:X.
  - unfold shape_eqb in X. destruct (list_eq_dec Nat.eq_dec (shp m) v) as [SV|]; [|discriminate]. rewrite SV in IX.
    destruct (first_histogram_inv auto v M M (row y) a y (fun ix => match dat m ix with Some e => HEdges e | None => HObj end) None a' SY) with (ix := ix) as (c & e & HH); auto.
    { unfold first_args. rewrite EB. auto. }
    destruct (dat m ix) as [l|]; simpl in BD, HH; [|discriminate]. unfold hist_edges in HH. rewrite BD in HH. discriminate.
  - destruct HM as [D0 HM]. destruct (moments_head _ _ _ _ HM) as (m0 & tl & EM & S0). unfold mc_update_histogram in H. rewrite EB, EM, S0, X, SY, last_snoc in H.
    destruct (shape_eqb (removelast (shp m)) v); [|discriminate].
    destruct (objs_fail v M y (mkArr v (fun _ => None)) (mkArr v (fun _ => None)) (mkArr v (fun _ => 0%Z)) SY NE) as (b' & c' & o' & E & _). rewrite E in H. discriminate.
Qed.
Lemma hist_use first N y a : mc_use (fst (mc_update_histogram auto first N y a)) = mc_use a.
Proof.
  unfold mc_update_histogram. destruct (mc_bins a) as [|n|s|m|m]; auto; destruct (mc_moments a) as [[|m0 t]|]; auto; destruct first; auto;
  repeat (match goal with |- context [match ?x with _ => _ end] => destruct x end; auto).
Qed.
Lemma update_bricks use v a x n a' e : mc_use a = use -> (exists ix, inb v ix) -> sample_ok use v x ->
  mc_update auto 0 a (fst x) (snd x) = ((n, a'), Err e) -> n = 0%nat /\ bricked a' /\ mc_use a' = use.
Proof.
  intros HU NE HS H. destruct (first_moments use v a x HU HS) as (y & m & a1 & EY & SY & Pm & HR & E1 & M1 & B1 & R1 & U1 & _).
  unfold mc_update in H. rewrite HU, EY in H. simpl Nat.eqb in H. cbv iota in H. rewrite E1 in H.
  pose proof (hist_use true 0 y a1) as U2.
  destruct (mc_update_histogram auto true 0 y a1) as [a2 [[]|e2]] eqn:EH; [discriminate|]. injection H as <- <- <-. split; [auto|].
  split; [eapply fail_bricks; eauto|]. simpl in U2. congruence.
Qed.
Lemma bricked_update use v a x : mc_use a = use -> (exists ix, inb v ix) -> sample_ok use v x -> bricked a ->
  exists a' e, mc_update auto 0 a (fst x) (snd x) = ((0%nat, a'), Err e) /\ bricked a' /\ mc_use a' = use.
Proof.
  intros HU NE HS HB. destruct (first_moments use v a x HU HS) as (y & m & a1 & EY & SY & Pm & HR & E1 & M1 & B1 & R1 & U1 & _).
  destruct (bricked_fails v m a1 y SY) as (a2 & e & EH); auto; [eauto|destruct HB as (b & ix & EB & ?); exists b, ix; rewrite B1; auto|].
  exists a2, e. assert (EU : mc_update auto 0 a (fst x) (snd x) = ((0%nat, a2), Err e)).
  { unfold mc_update. rewrite HU, EY. simpl Nat.eqb. cbv iota. rewrite E1, EH. reflexivity. }
  split; [auto|]. apply (update_bricks use v a x 0%nat a2 e) in EU; auto. tauto.
Qed.
End Fail.
