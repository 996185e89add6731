(** The joint state of a compound Poisson source with memory and of its counts. *)
From Coq Require Import List Arith Bool Lia ZArith Reals Lra Sorted.
From Verif Require Import Base BaseNum BaseArr BaseNd BaseIdx M_process M_source M_true S_process S_source S_mc S_true S_true3 L_nd L_sdes L_process L_process2 L_source L_true L_true2 L_true3 P_source P_source3 P_true P_true3 P_true5 P_true6 L_true6.
Import ListNotations.
Local Open Scope R_scope.

(** *** chains *)
Section Chains.
Context {A : Type}.
Fixpoint chain (P : A -> A -> Prop) (m : list A) : Prop :=
  match m with
  | p :: ((q :: _) as r) => P p q /\ chain P r
  | _ => True
  end.
Lemma chain_app P l p r : chain P (l ++ p :: r) <-> chain P (l ++ [p]) /\ chain P (p :: r).
Proof.
  induction l as [|a l IH]; cbn [app].
  - simpl. tauto.
  - destruct l as [|b l]; cbn [app] in *.
    + simpl. tauto.
    + cbn [chain] in *. tauto.
Qed.
Lemma chain_swap (P P' : A -> A -> Prop) l q q' : (forall p x, In p l -> In x l -> P p x -> P' p x) -> (forall p, In p l -> P p q -> P' p q') -> chain P (l ++ [q]) -> chain P' (l ++ [q']).
Proof.
  induction l as [|a l IH]; intros H1 H2 C; [simpl; auto|]. destruct l as [|b l]; cbn [app chain] in *; destruct C as [C1 C2]; split; auto.
  - apply H2; simpl; auto.
  - apply H1; simpl; auto.
  - apply IH; [| |exact C2]; intros; [apply H1|apply H2]; simpl in *; tauto.
Qed.
Lemma chain_mono (P P' : A -> A -> Prop) m : (forall p q, In p m -> P p q -> P' p q) -> chain P m -> chain P' m.
Proof. induction m as [|a m IH]; intros H C; [simpl; auto|]. destruct m as [|b m]; [simpl; auto|]. cbn [chain] in *. split; [apply H; simpl; tauto|]. apply IH; [|tauto]. intros. apply H; simpl in *; tauto. Qed.
Lemma chain_pair P m : chain P m <-> forall l p q r, m = l ++ p :: q :: r -> P p q.
Proof.
  split.
  - intros C l p q r ->. apply chain_app in C. destruct C as [_ C]. apply C.
  - induction m as [|a m IH]; intro H; [simpl; auto|]. destruct m as [|b m]; [simpl; auto|]. cbn [chain]. split; [apply (H [] a b m); auto|]. apply IH. intros l p q r E. apply (H (a :: l) p q r). rewrite E. reflexivity.
Qed.
End Chains.

(** *** the jumps drawn by a call *)
Section Calls.
Context {G : Type} (rvs : R -> nat -> nat -> G -> res (arr R) * G).
Hypothesis RVS : rvs_ok rvs.
Lemma Forall2_weaken {A B} (P Q : A -> B -> Prop) l l' : (forall a b, P a b -> Q a b) -> Forall2 P l l' -> Forall2 Q l l'.
Proof. intros H F. induction F; constructor; auto. Qed.
Lemma samples_recorded s tm (pos : arr Z) js g l g' : NoDup js -> threaded (fun j => jump_sample rvs s tm pos j) js g l g' ->
  Forall2 (fun j p => In j js /\ fst p = entries_with pos j /\ shp (snd p) = [List.length (entries_with pos j); j] /\ forall k r, nth_error (entries_with pos j) k = Some r -> jlist (the_samples l) r = row (snd p) [k])
    (filter (fun j => negb (List.length (entries_with pos j) =? 0)%nat) js) (the_samples l).
Proof using RVS.
  intros ND T. induction T as [g|j js g b g1 l g2 E T IH]; [constructor|]. inversion ND as [|? ? NI ND']; subst. specialize (IH ND'). unfold jump_sample in E. fold (entries_with pos j) in E. cbn [filter the_samples flat_map snd]. fold (the_samples l). destruct (entries_with pos j) as [|e0 e] eqn:Ee.
  - apply dret_ok in E. destruct E as [-> ->]. cbn [List.length Nat.eqb negb app]. eapply Forall2_weaken; [|exact IH]. cbv beta. simpl. tauto.
  - apply dbind_ok in E. destruct E as (y & g3 & Y & E). apply dbind_ok in E. destruct E as ([] & g4 & E4 & E). apply dres_ok in E4. destruct E4 as [_ ->]. apply dret_ok in E. destruct E as [-> ->]. cbn [List.length Nat.eqb negb app]. rewrite <- Ee in *. pose proof (RVS _ _ _ _ _ _ Y) as SY. constructor.
    + cbn [fst snd]. split; [simpl; auto|]. split; auto. split; [exact SY|]. intros k r K. cbn [jlist]. rewrite (nth_error_position (entries_with pos j) k r); auto. apply NoDup_filter, NoDup_ndindex.
    + eapply Forall2_weaken; [|exact IH]. cbv beta. intros i p (I & Q1 & Q2 & Q3). split; [simpl; auto|]. split; auto. split; auto. intros k r K. cbn [jlist]. replace (position r (entries_with pos j)) with (@None nat); [eauto|]. symmetry. apply position_none. intro Ir. apply nth_error_In in K. unfold entries_with in Ir, K. apply filter_In in Ir, K. destruct Ir as [_ Ir], K as [_ K]. apply Z.eqb_eq in Ir, K. assert (i = j) by lia. subst. contradiction.
Qed.
Lemma drawn_row tm m j g y g' k : rvs tm m j g = (Ok y, g') -> (k < m)%nat -> List.Forall (drawable rvs) (row y [k]).
Proof using RVS.
  intros E K. pose proof (RVS _ _ _ _ _ _ E) as S. apply Forall_forall. intros x I. unfold row in I. rewrite S in I. cbn [last app] in I. apply in_map_iff in I. destruct I as (i & <- & I). apply in_seq in I. exists tm, m, j, g, y, g', [k; i]. split; auto. split; auto. rewrite S. repeat constructor; lia.
Qed.
Lemma call_recorded dn paths vshape (t dt : R) g dz n ys g' : let zs := vshape ++ [paths] in cpoisson_call dn rvs paths vshape (ascalar t) (ascalar dt) g = (Ok (dz, n, ys), g') ->
  exists g1, dn (mkArr [] (bget (ascalar t))) (mkArr [] (bget (ascalar dt))) g = (Ok n, g1) /\ shp dz = zs /\
    (shp n = zs -> (forall r, inb zs r -> (0 <= nsign dt * dat n r)%Z) -> exists J, matches zs (amap (fun k => (nsign dt * k)%Z) n) J /\ recorded zs J ys /\
      forall r, inb zs r -> dat dz r = IZR (nsign dt) * total (J r) /\ List.Forall (drawable rvs) (J r)).
Proof using RVS.
  intros zs C. unfold cpoisson_call in C. apply dbind_ok in C. destruct C as ([t' dt'] & g0 & E0 & C). apply dres_ok in E0. destruct E0 as [E0 ->]. unfold broadcast2 in E0. cbn [ascalar shp bshape] in E0. injection E0 as <- <-. cbn [shp dat] in C.
  apply dbind_ok in C. destruct C as (n' & g1 & DN & C). exists g1. apply dbind_ok in C. destruct C as (l & g2 & T & C). apply dret_ok in C. destruct C as [C _]. injection C as -> -> ->. split; [exact DN|]. split; [reflexivity|]. intros SN P.
  apply each_threaded in T. inversion T as [|i il ga b gb l' gc E T']; subst. inversion T'; subst. clear T T' DN.
  apply dbind_ok in E. destruct E as (ni & g6 & E6 & E). apply dres_ok in E6. destruct E6 as [E6 ->]. rewrite (sub_arr_prefix n' [] zs [] SN ltac:(constructor)) in E6. injection E6 as <-. cbn [app] in E.
  apply dbind_ok in E. destruct E as (nm & g7 & E7 & E). apply dres_ok in E7. destruct E7 as [E7 ->]. apply dbind_ok in E. destruct E as (sl & g8 & E8 & E). apply dret_ok in E. destruct E as [-> ->]. apply each_threaded in E8.
  set (sg := nsign (bget (ascalar dt) [])) in *. replace (nsign dt) with sg in * by reflexivity. set (pos := amap (fun k => (sg * k)%Z) (mkArr zs (fun j => dat n' j))) in *.
  pose proof (samples_recorded _ _ _ _ _ _ _ (seq_NoDup _ _) E8) as SR. apply (samples_at rvs RVS) in E8; [|apply seq_NoDup]. cbv zeta in E8. set (L := the_samples sl) in *. destruct E8 as (A1 & A2 & _).
  assert (Mp : matches zs pos (jlist L)).
  { split; [reflexivity|]. intros r I. rewrite A1 by exact I. assert (Pr := P r I). cbn [pos amap dat] in *. unfold pos. cbn [amap dat]. destruct (existsb _ _) eqn:X; [lia|].
    destruct (Z.eq_dec (sg * dat n' r) 0) as [Q|Q]; [lia|]. exfalso. assert (Y : existsb (fun j => (sg * dat n' r =? Z.of_nat j)%Z) (seq 1 (Z.to_nat nm)) = true); [|unfold pos in X; cbn [amap dat] in X; congruence].
    assert (sg * dat n' r <= nm)%Z. { apply (zmax_ge _ _ E7). unfold ravel. apply in_map_iff. exists r. split; [reflexivity|]. apply in_ndindex; auto. }
    apply existsb_exists. exists (Z.to_nat (sg * dat n' r)). rewrite in_seq. split; [lia|]. apply Z.eqb_eq. lia. }
  exists (jlist L). split; [|split].
  - split; [exact SN|]. intros r I. apply (proj2 Mp r I).
  - cbn [flat_map snd app]. rewrite app_nil_r. unfold recorded. fold (longest zs (jlist L)).
    assert (NE : ndindex zs <> []). { unfold ravel in E7. cbn [amap shp] in E7. intro Q. unfold pos in E7. cbn [amap shp] in E7. rewrite Q in E7. discriminate. }
    assert (CM := count_max_matches zs pos (jlist L) NE Mp). unfold count_max in CM. rewrite E7 in CM. cbv beta iota delta [rbind] in CM. destruct (nm <? 0)%Z; [discriminate|]. injection CM as CM. rewrite <- CM.
    replace (filter (fun i => negb (List.length (with_jumps zs (jlist L) i) =? 0)%nat) (seq 1 (Z.to_nat nm))) with (filter (fun j => negb (List.length (entries_with pos j) =? 0)%nat) (seq 1 (Z.to_nat nm))) by (apply filter_ext; intro i; rewrite (entries_matches zs pos (jlist L) i Mp); reflexivity).
    clear - SR Mp. assert (X : forall l l', Forall2 (fun j p => In j (seq 1 (Z.to_nat nm)) /\ fst p = entries_with pos j /\ shp (snd p) = [List.length (entries_with pos j); j] /\ forall k r, nth_error (entries_with pos j) k = Some r -> jlist L r = row (snd p) [k]) l l' ->
      Forall2 (fun i y => shp y = [List.length (with_jumps zs (jlist L) i); i] /\ forall k r, nth_error (with_jumps zs (jlist L) i) k = Some r -> row y [k] = jlist L r) l (map snd l')); [|apply X, SR].
    induction 1 as [|i p l l' (_ & Q1 & Q2 & Q3) F IH]; cbn [map]; constructor; auto. rewrite <- (entries_matches zs pos (jlist L) i Mp). split; auto. intros k r K. symmetry. auto.
  - intros r I. split; [|destruct (list_eq_dec Req_EM_T (jlist L r) []) as [Q|Q]; [rewrite Q; constructor|]; destruct (A2 r I Q) as (m & ga & y & gb & k & Y & K & ->); eapply drawn_row; eauto].
    cbn [map fst snd]. destruct (assembled_entry 0 [] zs [([], mkArr zs (jumps_at (List.length zs) sg L))] [] r eq_refl ltac:(constructor)) as (a & [Ia|[]] & Qa). injection Ia as <-. refine (eq_trans Qa _). rewrite bget_self by exact I. cbn [dat]. apply jumps_at_sum; [rewrite (inb_length _ _ I); auto|apply nsign_cases].
Qed.
End Calls.
