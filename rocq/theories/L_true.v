(** Lemmas on sources with memory. *)
From Coq Require Import List Arith Bool Lia ZArith Reals Lra Sorted.
From Verif Require Import Base BaseNum BaseArr BaseNd BaseIdx M_process M_source M_true S_process S_source S_true L_nd L_sdes L_process L_process2 L_source.
Import ListNotations.
Local Open Scope R_scope.

(** *** bisection *)
Lemma nlt_R (x y : R) : nlt x y = true <-> x < y.
Proof. cbn. destruct (Rlt_dec x y); split; auto; discriminate. Qed.
Lemma nlt_R_false (x y : R) : nlt x y = false <-> y <= x.
Proof. cbn. destruct (Rlt_dec x y); split; auto; try lra; discriminate. Qed.
Lemma isclose_R rtol s t : isclose (V := R) rtol s t = true <-> close rtol s t.
Proof. unfold isclose, close. rewrite negb_true_iff, nlt_R_false, !nabs_R. reflexivity. Qed.
Lemma isclose_R_false rtol s t : isclose (V := R) rtol s t = false <-> ~ close rtol s t.
Proof. rewrite <- isclose_R. destruct (isclose rtol s t); split; auto; try discriminate; intro H; elim H; auto. Qed.
Lemma bisect_loop_spec (t : list R) s n1 : (forall i, (i < n1)%nat -> nth i t 0 <= s) -> (forall i, (n1 <= i < List.length t)%nat -> s < nth i t 0) ->
  forall fuel lo hi, (hi - lo <= fuel)%nat -> (lo <= n1 <= hi)%nat -> (hi <= List.length t)%nat -> bisect_loop fuel t s lo hi = n1.
Proof.
  intros H1 H2. induction fuel as [|fuel IH]; intros lo hi F B L; cbn [bisect_loop]; [lia|].
  destruct (Nat.ltb_spec lo hi) as [Q|Q]; [|lia].
  assert (M : (lo <= (lo + hi)/2 < hi)%nat) by (split; [apply Nat.div_le_lower_bound; lia|apply Nat.div_lt_upper_bound; lia]).
  set (mid := ((lo + hi)/2)%nat) in *. change (@nzero R _) with 0. destruct (nlt s (nth mid t 0)) eqn:E.
  - apply nlt_R in E. apply IH; [lia| |lia]. destruct (Nat.lt_ge_cases mid n1) as [C|C]; [|lia]. specialize (H1 mid C). lra.
  - apply nlt_R_false in E. apply IH; [lia| |lia]. destruct (Nat.lt_ge_cases mid n1) as [C|C]; [lia|]. specialize (H2 mid ltac:(lia)). lra.
Qed.
Lemma bisect_right_spec (l1 l2 : list R) s : List.Forall (fun t => t <= s) l1 -> List.Forall (fun t => s < t) l2 -> bisect_right (l1 ++ l2) s = List.length l1.
Proof.
  intros F1 F2. unfold bisect_right. rewrite Forall_forall in F1, F2. apply bisect_loop_spec; rewrite ?app_length; try lia.
  - intros i L. rewrite app_nth1 by auto. apply F1, nth_In; auto.
  - intros i L. rewrite app_nth2 by lia. apply F2, nth_In; lia.
Qed.
(** every sorted list splits at s *)
Lemma sorted_split {Z} (m : list (R * Z)) s : StronglySorted Rlt (map fst m) ->
  exists l1 l2, m = l1 ++ l2 /\ List.Forall (fun p => fst p <= s) l1 /\ List.Forall (fun p => s < fst p) l2.
Proof.
  induction m as [|[t z] m IH]; intro S; [exists [], []; auto|]. cbn [map fst] in S. inversion S; subst.
  destruct (Rle_lt_dec t s) as [L|L].
  - destruct (IH H1) as (l1 & l2 & -> & F1 & F2). exists ((t, z) :: l1), l2. auto.
  - exists [], ((t, z) :: m). split; [auto|]. split; auto. constructor; auto. rewrite Forall_forall in *. intros p I. specialize (H2 (fst p) (in_map fst _ _ I)). lra.
Qed.

Section Memory.
Context {Z B G : Type}.
Variable getvalue : Z -> arr B.
Variable new_outside : Z -> R -> R -> G -> res (Z * Z) * G.
Variable new_inside : Z -> Z -> R -> R -> R -> G -> res (Z * option Z) * G.
Variable rtol : R.
Local Notation ret := (retrieve1 getvalue new_outside new_inside rtol).

(** *** the three cases of a query *)
Lemma bisect_pairs (l1 l2 : list (R * Z)) s : List.Forall (fun p => fst p <= s) l1 -> List.Forall (fun p => s < fst p) l2 -> bisect_right (map fst (l1 ++ l2)) s = List.length l1.
Proof. intros F1 F2. rewrite map_app, bisect_right_spec, map_length; auto; apply Forall_map; auto. Qed.
Lemma retrieve1_end l1 tk zk s g : List.Forall (fun p : R * Z => fst p <= s) (l1 ++ [(tk, zk)]) ->
  ret s (l1 ++ [(tk, zk)], g) =
    if isclose rtol s tk then (Ok (getvalue zk), (l1 ++ [(tk, zk)], g))
    else match new_outside zk tk s g with
         | (Ok (zk', zn), g') => (Ok (getvalue zn), (l1 ++ [(tk, zk'); (s, zn)], g'))
         | (Err e, g') => (Err e, (l1 ++ [(tk, zk)], g'))
         end.
Proof.
  intro F. unfold retrieve1. pose proof (bisect_pairs _ [] s F (Forall_nil _)) as Bi. rewrite app_nil_r in Bi. rewrite Bi. rewrite !app_length. cbn [List.length]. replace (List.length l1 + 1 =? 0)%nat with false by (symmetry; apply Nat.eqb_neq; lia).
  replace (List.length l1 + 1 - 1)%nat with (List.length l1) by lia. rewrite nth_error_app2, Nat.sub_diag by lia. cbn [nth_error]. destruct (isclose rtol s tk); [auto|]. rewrite Nat.eqb_refl.
  rewrite firstn_app_exact by auto. reflexivity.
Qed.
Lemma retrieve1_between l1 tk zk t2 z2 l3 s g : List.Forall (fun p : R * Z => fst p <= s) (l1 ++ [(tk, zk)]) -> List.Forall (fun p => s < fst p) ((t2, z2) :: l3) ->
  ret s (l1 ++ (tk, zk) :: (t2, z2) :: l3, g) =
    if isclose rtol s tk then (Ok (getvalue zk), (l1 ++ (tk, zk) :: (t2, z2) :: l3, g))
    else match new_inside zk z2 tk t2 s g with
         | (Ok (zk', Some zn), g') => (Ok (getvalue zn), (l1 ++ (tk, zk') :: (s, zn) :: (t2, z2) :: l3, g'))
         | (Ok (zk', None), g') => (Ok (getvalue z2), (l1 ++ (tk, zk') :: (t2, z2) :: l3, g'))
         | (Err e, g') => (Err e, (l1 ++ (tk, zk) :: (t2, z2) :: l3, g'))
         end.
Proof.
  intros F1 F2. unfold retrieve1. pose proof (bisect_pairs _ _ s F1 F2) as Bi. rewrite <- app_assoc in Bi. cbn [app] in Bi. rewrite Bi. rewrite !app_length. cbn [List.length]. replace (List.length l1 + 1 =? 0)%nat with false by (symmetry; apply Nat.eqb_neq; lia).
  replace (List.length l1 + 1 - 1)%nat with (List.length l1) by lia. rewrite nth_error_app2, Nat.sub_diag by lia. cbn [nth_error]. destruct (isclose rtol s tk); [auto|].
  replace (List.length l1 + 1 =? List.length l1 + S (S (List.length l3)))%nat with false by (symmetry; apply Nat.eqb_neq; lia).
  rewrite nth_error_app2 by lia. replace (List.length l1 + 1 - List.length l1)%nat with 1%nat by lia. cbn [nth_error].
  rewrite firstn_app_exact by auto. replace (skipn (List.length l1 + 1) (l1 ++ (tk, zk) :: (t2, z2) :: l3)) with ((t2, z2) :: l3); [reflexivity|].
  rewrite skipn_app, skipn_all2 by lia. replace (List.length l1 + 1 - List.length l1)%nat with 1%nat by lia. reflexivity.
Qed.
Lemma retrieve1_start t2 z2 l3 l tl zl s g : List.Forall (fun p : R * Z => s < fst p) ((t2, z2) :: l3) -> (t2, z2) :: l3 = l ++ [(tl, zl)] ->
  ret s ((t2, z2) :: l3, g) =
    if isclose rtol s tl then (Ok (getvalue zl), ((t2, z2) :: l3, g))
    else match new_outside z2 t2 s g with
         | (Ok (z2', zn), g') => (Ok (getvalue zn), ((s, zn) :: (t2, z2') :: l3, g'))
         | (Err e, g') => (Err e, ((t2, z2) :: l3, g'))
         end.
Proof.
  intros F E. unfold retrieve1. pose proof (bisect_pairs [] _ s (Forall_nil _) F) as Bi. cbn [app] in Bi. rewrite Bi. cbn [List.length Nat.eqb].
  rewrite E at 1. replace (S (List.length l3) - 1)%nat with (List.length l) by (apply (f_equal (@List.length _)) in E; rewrite app_length in E; simpl in E; lia).
  rewrite nth_error_app2, Nat.sub_diag by lia. cbn [nth_error]. reflexivity.
Qed.
Lemma memory_snoc (l : list (R * Z)) : l <> [] -> exists l' p, l = l' ++ [p].
Proof. intro N. destruct (exists_last N) as (l' & p & E). eauto. Qed.

(** *** what a query does to the memory *)
Variable zs : list nat.
Variable same : arr B -> arr B -> Prop.
Hypothesis Dis : disciplined getvalue new_outside new_inside zs same.
Hypothesis rtol_pos : 0 <= rtol.
Definition alike (l l' : list (R * Z)) : Prop := Forall2 (fun p q => fst p = fst q /\ getvalue (snd p) = getvalue (snd q)) l l'.
Definition wf (m : list (R * Z)) : Prop := m <> [] /\ StronglySorted Rlt (map fst m) /\ List.Forall (fun p => shp (getvalue (snd p)) = zs) m.
Definition fresh (s : R) (l r : list (R * Z)) : Prop :=
  forall l1 tk zk, l = l1 ++ [(tk, zk)] -> ~ close rtol s tk /\ forall t2 z2 l3, r = (t2, z2) :: l3 -> ~ same (getvalue zk) (getvalue z2).
Definition inserted (s : R) (zn : Z) (m m' : list (R * Z)) : Prop :=
  exists l r l' r', m = l ++ r /\ m' = l' ++ (s, zn) :: r' /\ alike l l' /\ alike r r' /\ shp (getvalue zn) = zs /\
    List.Forall (fun p => fst p < s) l /\ List.Forall (fun p => s < fst p) r /\ fresh s l r.
Lemma alike_refl l : alike l l.
Proof. unfold alike. induction l; constructor; auto. Qed.
Lemma alike_app l1 l1' l2 l2' : alike l1 l1' -> alike l2 l2' -> alike (l1 ++ l2) (l1' ++ l2').
Proof. apply Forall2_app. Qed.
Lemma alike_fst l l' : alike l l' -> map fst l' = map fst l.
Proof. unfold alike. induction 1 as [|p q l l' [E _] H IH]; simpl; congruence. Qed.
Lemma alike_cons t z z' l l' : getvalue z' = getvalue z -> alike l l' -> alike ((t, z) :: l) ((t, z') :: l').
Proof. constructor; auto. Qed.
Lemma sorted_app_cons (l : list (R * Z)) t z r : StronglySorted Rlt (map fst (l ++ (t, z) :: r)) ->
  List.Forall (fun p => fst p < t) l /\ List.Forall (fun p => t < fst p) r.
Proof.
  induction l as [|p l IH]; cbn [app map fst]; intro S; inversion S; subst.
  - split; auto. rewrite Forall_map in H2. auto.
  - destruct (IH H1) as [F1 F2]. split; auto. constructor; auto. rewrite Forall_forall in H2. apply H2. rewrite map_app. apply in_or_app. right. simpl. auto.
Qed.
Lemma close_refl s : close rtol s s.
Proof. unfold close. replace (s - s) with 0 by lra. rewrite Rabs_R0. apply Rmult_le_pos; auto. apply Rabs_pos. Qed.
Lemma not_close_lt s t : t <= s -> ~ close rtol s t -> t < s.
Proof. intros L N. destruct (Rle_lt_or_eq_dec _ _ L) as [|E]; auto. subst. elim N. apply close_refl. Qed.
Lemma sorted_below (l : list (R * Z)) tk zk r s : StronglySorted Rlt (map fst (l ++ (tk, zk) :: r)) -> tk < s -> List.Forall (fun p => fst p < s) (l ++ [(tk, zk)]).
Proof.
  intros S L. destruct (sorted_app_cons _ _ _ _ S) as [F _]. apply Forall_app. split; [|repeat constructor; auto]. eapply Forall_impl; [|exact F]. simpl. intros. lra.
Qed.
Lemma query_step m s g r m' g' : wf m -> ret s (m, g) = (r, (m', g')) -> alike m m' \/ exists zn, inserted s zn m m' /\ r = Ok (getvalue zn).
Proof.
  intros (N & S & F) E. destruct (sorted_split m s S) as (l1 & l2 & -> & F1 & F2).
  destruct l1 as [|p1 l1']; [destruct l2 as [|[t2 z2] l3]; [elim N; auto|]|].
  - cbn [app] in *. destruct (memory_snoc ((t2, z2) :: l3)) as (l & [tl zl] & El); [discriminate|].
    rewrite (retrieve1_start t2 z2 l3 l tl zl s g F2 El) in E. destruct (isclose rtol s tl).
    { injection E as <- <- <-. left. apply alike_refl. }
    destruct (new_outside z2 t2 s g) as [[[z2' zn]|e] g1] eqn:EO.
    + injection E as <- <- <-. right. exists zn. split; auto. inversion F; subst. cbn [snd] in *. destruct (dis_outside _ _ _ _ _ Dis _ _ _ _ _ _ _ EO H1) as [Q1 Q2].
      exists [], ((t2, z2) :: l3), [], ((t2, z2') :: l3). split; auto. split; auto. split; [constructor|]. split; [apply alike_cons; auto; apply alike_refl|].
      split; auto. split; auto. split; auto. intros l1 tk zk X. destruct l1; discriminate.
    + injection E as <- <- <-. left. apply alike_refl.
  - destruct (memory_snoc (p1 :: l1')) as (l & [tk zk] & El); [discriminate|]. rewrite El in *. clear p1 l1' El. destruct l2 as [|[t2 z2] l3].
    + rewrite app_nil_r in *. rewrite retrieve1_end in E by auto. destruct (isclose rtol s tk) eqn:C.
      { injection E as <- <- <-. left. apply alike_refl. }
      apply isclose_R_false in C. apply Forall_app in F1. destruct F1 as [F1 F1']. inversion F1'; subst. cbn [fst] in *. apply Forall_app in F. destruct F as [F F']. inversion F'; subst. cbn [snd] in *.
      destruct (new_outside zk tk s g) as [[[zk' zn]|e] g1] eqn:EO.
      * injection E as <- <- <-. right. exists zn. split; auto. destruct (dis_outside _ _ _ _ _ Dis _ _ _ _ _ _ _ EO H3) as [Q1 Q2].
        exists (l ++ [(tk, zk)]), [], (l ++ [(tk, zk')]), []. split; [rewrite app_nil_r; auto|]. split; [rewrite <- app_assoc; auto|]. split; [apply alike_app; [apply alike_refl|apply alike_cons; auto; constructor]|].
        split; [constructor|]. split; auto. split; [eapply sorted_below; [exact S|apply not_close_lt; auto]|]. split; auto.
        intros l1 tk1 zk1 X. apply app_inj_tail in X. destruct X as [_ X]. injection X as <- <-. split; auto. intros; discriminate.
      * injection E as <- <- <-. left. apply alike_refl.
    + rewrite <- app_assoc in *. cbn [app] in *. rewrite retrieve1_between in E by auto. destruct (isclose rtol s tk) eqn:C.
      { injection E as <- <- <-. left. apply alike_refl. }
      apply isclose_R_false in C. apply Forall_app in F1. destruct F1 as [F1 F1']. inversion F1'; subst. cbn [fst] in *. apply Forall_app in F. destruct F as [F F']. inversion F'; subst. inversion H4; subst. cbn [snd] in *.
      destruct (new_inside zk z2 tk t2 s g) as [[[zk' [zn|]]|e] g1] eqn:EO.
      * injection E as <- <- <-. right. exists zn. split; auto. destruct (dis_inside _ _ _ _ _ Dis _ _ _ _ _ _ _ _ _ EO H3 H5) as [Q1 Q2].
        exists (l ++ [(tk, zk)]), ((t2, z2) :: l3), (l ++ [(tk, zk')]), ((t2, z2) :: l3). split; [rewrite <- app_assoc; auto|]. split; [rewrite <- app_assoc; auto|]. split; [apply alike_app; [apply alike_refl|apply alike_cons; auto; constructor]|].
        split; [apply alike_refl|]. split; auto. split; [eapply sorted_below; [exact S|apply not_close_lt; auto]|]. split; auto.
        intros l1 tk1 zk1 X. apply app_inj_tail in X. destruct X as [_ X]. injection X as <- <-. split; auto. intros t3 z3 l4 X. injection X as <- <- <-. intro A.
        rewrite (dis_same _ _ _ _ _ Dis _ _ tk t2 s g A) in EO. discriminate.
      * injection E as <- <- <-. left. destruct (dis_inside _ _ _ _ _ Dis _ _ _ _ _ _ _ _ _ EO H3 H5) as [Q1 Q2]. apply alike_app; [apply alike_refl|apply alike_cons; auto; apply alike_refl].
      * injection E as <- <- <-. left. apply alike_refl.
Qed.
Lemma query_shape m s g v m' g' : wf m -> ret s (m, g) = (Ok v, (m', g')) -> shp v = zs.
Proof.
  intros (N & S & F) E. destruct (sorted_split m s S) as (l1 & l2 & -> & F1 & F2).
  destruct l1 as [|p1 l1']; [destruct l2 as [|[t2 z2] l3]; [elim N; auto|]|].
  - cbn [app] in *. destruct (memory_snoc ((t2, z2) :: l3)) as (l & [tl zl] & El); [discriminate|].
    rewrite (retrieve1_start t2 z2 l3 l tl zl s g F2 El) in E. destruct (isclose rtol s tl).
    { injection E as <- <- <-. rewrite El in F. apply Forall_app in F. destruct F as [_ F]. apply Forall_inv in F. auto. }
    destruct (new_outside z2 t2 s g) as [[[z2' zn]|e] g1] eqn:EO; [|discriminate]. injection E as <- <- <-. apply Forall_inv in F. apply (dis_outside _ _ _ _ _ Dis _ _ _ _ _ _ _ EO F).
  - destruct (memory_snoc (p1 :: l1')) as (l & [tk zk] & El); [discriminate|]. rewrite El in *. clear p1 l1' El. destruct l2 as [|[t2 z2] l3].
    + rewrite app_nil_r in *. rewrite retrieve1_end in E by auto. apply Forall_app in F. destruct F as [_ F]. apply Forall_inv in F. cbn [snd] in F. destruct (isclose rtol s tk); [injection E as <- <- <-; auto|].
      destruct (new_outside zk tk s g) as [[[zk' zn]|e] g1] eqn:EO; [|discriminate]. injection E as <- <- <-. apply (dis_outside _ _ _ _ _ Dis _ _ _ _ _ _ _ EO F).
    + rewrite <- app_assoc in *. cbn [app] in *. rewrite retrieve1_between in E by auto. apply Forall_app in F. destruct F as [_ F]. assert (X1 := Forall_inv F). assert (X2 := Forall_inv (Forall_inv_tail F)). cbn [snd] in X1, X2. destruct (isclose rtol s tk); [injection E as <- <- <-; auto|].
      destruct (new_inside zk z2 tk t2 s g) as [[[zk' [zn|]]|e] g1] eqn:EO; [| |discriminate]; injection E as <- <- <-; auto. apply (dis_inside _ _ _ _ _ Dis _ _ _ _ _ _ _ _ _ EO X1 X2).
Qed.
Lemma alike_wf m m' : wf m -> alike m m' -> wf m'.
Proof.
  intros (N & S & F) A. split; [|split].
  - intros ->. inversion A; subst. auto.
  - rewrite (alike_fst _ _ A). auto.
  - clear N S. induction A as [|p q l l' [_ E] A IH]; auto. inversion F; subst. constructor; auto. rewrite <- E; auto.
Qed.
Lemma alike_forall (P : R -> Prop) l l' : alike l l' -> List.Forall (fun p => P (fst p)) l -> List.Forall (fun p => P (fst p)) l'.
Proof. intro A. induction A as [|p q l l' [E _] A IH]; intro F; auto. inversion F; subst. constructor; auto. rewrite <- E; auto. Qed.
Lemma sorted_glue (l : list (R * Z)) t z r : StronglySorted Rlt (map fst (l ++ r)) -> List.Forall (fun p => fst p < t) l -> List.Forall (fun p => t < fst p) r -> StronglySorted Rlt (map fst (l ++ (t, z) :: r)).
Proof.
  induction l as [|p l IH]; cbn [app map fst]; intros S F1 F2.
  - constructor; auto. apply Forall_map. auto.
  - inversion S; subst. inversion F1; subst. constructor; auto. rewrite map_app in *. apply Forall_app in H2. destruct H2. apply Forall_app. split; auto. cbn [map fst]. constructor; auto.
Qed.
Lemma inserted_wf s zn m m' : wf m -> inserted s zn m m' -> wf m'.
Proof.
  intros W (l & r & l' & r' & -> & -> & A1 & A2 & Q & F1 & F2 & _). assert (W' := alike_wf _ _ W (alike_app _ _ _ _ A1 A2)). destruct W' as (_ & S & F). split; [|split].
  - destruct l'; discriminate.
  - apply sorted_glue; auto; [apply (alike_forall (fun x => x < s) l)|apply (alike_forall (fun x => s < x) r)]; auto.
  - apply Forall_app in F. destruct F. apply Forall_app. split; auto.
Qed.
Lemma query_wf m s g r m' g' : wf m -> ret s (m, g) = (r, (m', g')) -> wf m'.
Proof. intros W E. destruct (query_step _ _ _ _ _ _ W E) as [A|(zn & A & _)]; [eapply alike_wf|eapply inserted_wf]; eauto. Qed.

(** *** times with a settled answer *)
Definition settled (m : list (R * Z)) (s : R) (v : arr B) : Prop :=
  exists l1 tk zk l2, m = l1 ++ (tk, zk) :: l2 /\ tk <= s /\ List.Forall (fun p => s < fst p) l2 /\
    ((close rtol s tk /\ aeq (getvalue zk) v) \/
     exists t2 z2 l3, l2 = (t2, z2) :: l3 /\ same (getvalue zk) (getvalue z2) /\ aeq (getvalue z2) v).
Lemma aeq_refl (a : arr B) : aeq a a.
Proof. split; auto. Qed.
Lemma aeq_sym (a b : arr B) : aeq a b -> aeq b a.
Proof. intros [E H]. split; auto. intros ix I. symmetry. apply H. rewrite E; auto. Qed.
Lemma aeq_trans (a b c : arr B) : aeq a b -> aeq b c -> aeq a c.
Proof. intros [E H] [E' H']. split; [congruence|]. intros ix I. rewrite H by auto. apply H'. rewrite <- E; auto. Qed.
(** a settled time gets its answer, and nothing else happens *)
Lemma settled_answer m s v g : wf m -> settled m s v -> exists v', ret s (m, g) = (Ok v', (m, g)) /\ aeq v' v.
Proof.
  intros (N & S & F) (l1 & tk & zk & l2 & -> & L & F2 & C). destruct (sorted_app_cons _ _ _ _ S) as [F1 _].
  assert (F1' : List.Forall (fun p => fst p <= s) (l1 ++ [(tk, zk)])).
  { apply Forall_app. split; [eapply Forall_impl; [|exact F1]; simpl; intros; lra|constructor; [exact L|constructor]]. }
  destruct l2 as [|[t2 z2] l3].
  - rewrite retrieve1_end by auto. destruct C as [[C A]|(? & ? & ? & ? & _)]; [|discriminate]. apply isclose_R in C. rewrite C. eauto.
  - rewrite retrieve1_between by auto. apply Forall_app in F. destruct F as [_ F]. assert (X1 := Forall_inv F). assert (X2 := Forall_inv (Forall_inv_tail F)). cbn [snd] in X1, X2.
    destruct (isclose rtol s tk) eqn:Q.
    + destruct C as [[C A]|(t2' & z2' & l3' & X & A & A')]; eauto. injection X as <- <- <-. exists (getvalue zk). split; auto. eapply aeq_trans; [|exact A']. apply (dis_equal _ _ _ _ _ Dis); auto.
    + destruct C as [[C A]|(t2' & z2' & l3' & X & A & A')]; [apply isclose_R in C; congruence|]. injection X as <- <- <-. rewrite (dis_same _ _ _ _ _ Dis _ _ tk t2 s g A). eauto.
Qed.
(** a time that has been answered is settled *)
Lemma answer_settled m s v g m' g' : wf m -> ~ fickle rtol m s -> ret s (m, g) = (Ok v, (m', g')) -> settled m' s v.
Proof.
  intros (N & S & F) NF E. destruct (sorted_split m s S) as (l1 & l2 & -> & F1 & F2).
  destruct l1 as [|p1 l1']; [destruct l2 as [|[t2 z2] l3]; [elim N; auto|]|].
  - cbn [app] in *. destruct (memory_snoc ((t2, z2) :: l3)) as (l & [tl zl] & El); [discriminate|].
    rewrite (retrieve1_start t2 z2 l3 l tl zl s g F2 El) in E. destruct (isclose rtol s tl) eqn:C.
    { elim NF. split.
      - rewrite Forall_forall in F2. intros t z I. apply (F2 _ I).
      - exists tl, zl. split; [rewrite El, map_app; apply last_last|apply isclose_R; auto]. }
    destruct (new_outside z2 t2 s g) as [[[z2' zn]|e] g1] eqn:EO; [|discriminate]. injection E as <- <- <-.
    exists [], s, zn, ((t2, z2') :: l3). split; auto. split; [lra|]. split; [inversion F2; subst; constructor; auto|]. left. split; [apply close_refl|apply aeq_refl].
  - destruct (memory_snoc (p1 :: l1')) as (l & [tk zk] & El); [discriminate|]. rewrite El in *. clear p1 l1' El. assert (L : tk <= s) by (apply Forall_app in F1; destruct F1 as [_ F1]; inversion F1; auto). destruct l2 as [|[t2 z2] l3].
    + rewrite app_nil_r in *. rewrite retrieve1_end in E by auto. destruct (isclose rtol s tk) eqn:C.
      { injection E as <- <- <-. exists l, tk, zk, []. split; auto. split; auto. split; auto. left. split; [apply isclose_R; auto|apply aeq_refl]. }
      destruct (new_outside zk tk s g) as [[[zk' zn]|e] g1] eqn:EO; [|discriminate]. injection E as <- <- <-.
      exists (l ++ [(tk, zk')]), s, zn, []. split; [rewrite <- app_assoc; auto|]. split; [lra|]. split; auto. left. split; [apply close_refl|apply aeq_refl].
    + rewrite <- app_assoc in *. cbn [app] in *. rewrite retrieve1_between in E by auto. destruct (isclose rtol s tk) eqn:C.
      { injection E as <- <- <-. exists l, tk, zk, ((t2, z2) :: l3). split; auto. split; auto. split; auto. left. split; [apply isclose_R; auto|apply aeq_refl]. }
      apply Forall_app in F. destruct F as [_ F]. assert (X1 := Forall_inv F). assert (X2 := Forall_inv (Forall_inv_tail F)). cbn [snd] in X1, X2.
      destruct (new_inside zk z2 tk t2 s g) as [[[zk' [zn|]]|e] g1] eqn:EO; [| |discriminate]; injection E as <- <- <-; destruct (dis_inside _ _ _ _ _ Dis _ _ _ _ _ _ _ _ _ EO X1 X2) as [Q1 Q2].
      * exists (l ++ [(tk, zk')]), s, zn, ((t2, z2) :: l3). split; [rewrite <- app_assoc; auto|]. split; [lra|]. split; auto. left. split; [apply close_refl|apply aeq_refl].
      * exists l, tk, zk', ((t2, z2) :: l3). split; auto. split; auto. split; auto. right. exists t2, z2, l3. split; auto. split; [rewrite Q1; auto|apply aeq_refl].
Qed.
Lemma alike_split l1 p l2 m' : alike (l1 ++ p :: l2) m' -> exists l1' z' l2', m' = l1' ++ (fst p, z') :: l2' /\ getvalue z' = getvalue (snd p) /\ alike l1 l1' /\ alike l2 l2'.
Proof.
  intro A. apply Forall2_app_inv_l in A. destruct A as (l1' & q & A1 & A2 & ->). inversion A2 as [|? [tq zq] ? l2' [E1 E2] A3]; subst. cbn [fst snd] in *. subst tq. exists l1', zq, l2'. auto.
Qed.
Lemma settled_alike m m' s v : alike m m' -> settled m s v -> settled m' s v.
Proof.
  intros A (l1 & tk & zk & l2 & -> & L & F2 & C). destruct (alike_split _ _ _ _ A) as (l1' & zk' & l2' & -> & Q & A1 & A2). cbn [fst snd] in *. exists l1', tk, zk', l2'.
  split; auto. split; auto. split; [apply (alike_forall (fun x => s < x) l2); auto|]. rewrite Q. destruct C as [C|(t2 & z2 & l3 & -> & C1 & C2)]; auto. right. inversion A2 as [|? [t2' z2'] ? l3' [E1 E2] A3]; subst. cbn [fst snd] in *.
  exists t2', z2', l3'. rewrite <- E2. auto.
Qed.
Lemma close_between s s' tk : tk <= s' -> s' <= s -> close rtol s tk -> close rtol s' tk.
Proof. unfold close. intros L1 L2. rewrite (Rabs_right (s - tk)), (Rabs_right (s' - tk)) by lra. lra. Qed.
(** where an inserted time falls *)
Lemma app_split_lt (l r l1 l2 : list (R * Z)) p s' : l ++ r = l1 ++ p :: l2 -> List.Forall (fun p => fst p < s') l -> List.Forall (fun p => s' < fst p) r -> fst p < s' -> exists l2a, l = l1 ++ p :: l2a /\ l2 = l2a ++ r.
Proof.
  revert l1. induction l as [|q l IH]; intros l1 E F1 F2 L.
  - cbn [app] in E. subst r. exfalso. rewrite Forall_forall in F2. specialize (F2 p (in_elt p l1 l2)). lra.
  - destruct l1 as [|q1 l1]; cbn [app] in E; injection E as <- E.
    + exists l. split; auto. 
    + inversion F1; subst. destruct (IH l1 E H2 F2 L) as (l2a & -> & ->). exists l2a. auto.
Qed.
Lemma app_split_gt (l r l1 l2 : list (R * Z)) p s' : l ++ r = l1 ++ p :: l2 -> List.Forall (fun p => fst p < s') l -> List.Forall (fun p => s' < fst p) r -> s' < fst p -> exists r1, l1 = l ++ r1 /\ r = r1 ++ p :: l2.
Proof.
  revert l1. induction l as [|q l IH]; intros l1 E F1 F2 L.
  - cbn [app] in *. exists l1. auto.
  - inversion F1; subst. destruct l1 as [|q1 l1]; cbn [app] in E; injection E as <- E; [exfalso; lra|]. destruct (IH l1 E H2 F2 L) as (r1 & -> & ->). exists r1. auto.
Qed.
Lemma settled_inserted m m' s v s' zn : inserted s' zn m m' -> settled m s v -> settled m' s v.
Proof.
  intros (l & r & l' & r' & E1 & -> & A1 & A2 & Q & F1 & F2 & Fr) (l1 & tk & zk & l2 & E2 & L & F3 & C). rewrite E1 in E2.
  destruct (Rtotal_order tk s') as [O|[O|O]].
  - destruct (app_split_lt _ _ _ _ (tk, zk) s' E2 F1 F2 O) as (l2a & -> & ->). destruct (alike_split _ _ _ _ A1) as (l1' & zk' & l2a' & -> & Q1 & B1 & B2). cbn [fst snd] in *. apply Forall_app in F3. destruct F3 as [F3 F4].
    destruct (Rle_lt_dec s' s) as [O1|O1].
    + (* between tk and s: not possible *) exfalso. destruct l2a as [|[t3 z3] l2a].
      * destruct (Fr l1 tk zk eq_refl) as [X1 X2]. destruct C as [[C _]|(t2 & z2 & l3 & E & C1 & _)].
        { apply X1. eapply close_between; [| |exact C]; lra. }
        { cbn [app] in E. eapply X2; eauto. }
      * inversion F3; subst. cbn [fst] in *. apply Forall_app in F1. destruct F1 as [_ F1]. inversion F1; subst. inversion H4; subst. cbn [fst] in *. lra.
    + exists l1', tk, zk', (l2a' ++ (s', zn) :: r'). rewrite <- app_assoc. split; auto. split; auto. split.
      { apply Forall_app. split; [apply (alike_forall (fun x => s < x) l2a); auto|]. constructor; [auto|]. apply (alike_forall (fun x => s < x) r); auto. }
      rewrite Q1. destruct C as [C|(t2 & z2 & l3 & E & C1 & C2)]; auto. right. destruct l2a as [|[t3 z3] l2a].
      * cbn [app] in E. elim (proj2 (Fr l1 tk zk eq_refl) t2 z2 l3 E C1).
      * cbn [app] in E. injection E as <- <- <-. inversion B2 as [|? [t2' z2'] ? l3' [E3 E4] B3]; subst. cbn [fst snd] in *. exists t2', z2', (l3' ++ (s', zn) :: r'). rewrite <- E4. auto.
  - exfalso. subst s'. assert (I : In (tk, zk) (l ++ r)) by (rewrite E2; apply in_or_app; simpl; auto). apply in_app_or in I. rewrite Forall_forall in F1, F2. destruct I as [I|I]; [specialize (F1 _ I)|specialize (F2 _ I)]; simpl in *; lra.
  - destruct (app_split_gt _ _ _ _ (tk, zk) s' E2 F1 F2 O) as (r1 & -> & ->). destruct (alike_split _ _ _ _ A2) as (r1' & zk' & l2' & -> & Q1 & B1 & B2). cbn [fst snd] in *.
    assert (X : settled ((l' ++ (s', zn) :: r1') ++ (tk, zk') :: l2') s v).
    { exists (l' ++ (s', zn) :: r1'), tk, zk', l2'. split; auto. split; auto. split; [apply (alike_forall (fun x => s < x) l2); auto|]. rewrite Q1. destruct C as [C|(t2 & z2 & l3 & -> & C1 & C2)]; auto. right.
      inversion B2 as [|? [t2' z2'] ? l3' [E3 E4] B3]; subst. cbn [fst snd] in *. exists t2', z2', l3'. rewrite <- E4. auto. }
    rewrite <- app_assoc in X. exact X.
Qed.
Lemma settled_step m s v s' g r m' g' : wf m -> settled m s v -> ret s' (m, g) = (r, (m', g')) -> settled m' s v.
Proof. intros W S E. destruct (query_step _ _ _ _ _ _ W E) as [A|(zn & A & _)]; [eapply settled_alike|eapply settled_inserted]; eauto. Qed.
End Memory.
