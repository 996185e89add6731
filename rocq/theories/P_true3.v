(** C18, C20, C62: what a query finds in memory, where the answer may change, and references by index. *)
From Coq Require Import List Arith Bool Lia ZArith Reals Lra Sorted.
From Verif Require Import Base BaseNum BaseArr BaseNd BaseIdx M_process M_source M_true S_process S_source S_mc S_true L_nd L_sdes L_process L_process2 L_source L_true L_true2 L_true3 L_true4 P_source P_true.
Import ListNotations.
Local Open Scope R_scope.

Section Memory.
Context {Z B G : Type}.
Variable getvalue : Z -> arr B.
Variable new_outside : Z -> R -> R -> G -> res (Z * Z) * G.
Variable new_inside : Z -> Z -> R -> R -> R -> G -> res (Z * option Z) * G.
Variable rtol : R.
Variable zs : list nat.
Variable sub : B -> B -> B.
Variable d : B.
Local Notation eval := (true_call getvalue new_outside new_inside rtol sub d zs).
Local Notation ret := (retrieve1 getvalue new_outside new_inside rtol).
Lemma eval_scalar s st v st' : ret s st = (Ok v, st') -> shp v = zs -> exists y, eval (ascalar s) None st = (Ok y, st') /\ aeq y v.
Proof.
  intros E S. unfold true_call. destruct (retrieve getvalue new_outside new_inside rtol d zs (ascalar s) st) as [r st1] eqn:Er. destruct (retrieve_scalar _ _ _ _ _ _ _ _ _ _ Er) as (o & E1 & H). rewrite E in E1. injection E1 as <- <-.
  destruct (broadcast_shape zs v S) as (x & Ex & Ax). rewrite Ex in H. destruct H as (y & -> & Sy & Hy). exists y. split; auto. eapply aeq_trans; [|exact Ax]. split; [destruct Ax; congruence|]. intros ix I. rewrite Hy. apply bget_self. destruct Ax. congruence.
Qed.
Lemma le_all (l1 : list (R * Z)) tk zk l2 s : sorted_times (l1 ++ (tk, zk) :: l2) -> tk <= s -> List.Forall (fun p => fst p <= s) (l1 ++ [(tk, zk)]).
Proof.
  intros S L. destruct (sorted_app_cons _ _ _ _ S) as [F1 _]. apply Forall_app. split; [eapply Forall_impl; [|exact F1]; simpl; intros; lra|constructor; [exact L|constructor]].
Qed.
Lemma lt_all (l1 : list (R * Z)) t2 z2 l2 s : sorted_times (l1 ++ (t2, z2) :: l2) -> s < t2 -> List.Forall (fun p => s < fst p) ((t2, z2) :: l2).
Proof. intros S L. destruct (sorted_app_cons _ _ _ _ S) as [_ F]. constructor; [exact L|]. eapply Forall_impl; [|exact F]; simpl; intros; lra. Qed.

(** *** C20 *)
(** within tolerance above the closest stored time not after s: the stored value, and nothing is generated *)
Theorem C20_above (l1 : list (R * Z)) tk zk l2 s g : sorted_times (l1 ++ (tk, zk) :: l2) -> shp (getvalue zk) = zs ->
  tk <= s -> (forall t z, In (t, z) l2 -> s < t) -> close rtol s tk ->
  exists y, eval (ascalar s) None (l1 ++ (tk, zk) :: l2, g) = (Ok y, (l1 ++ (tk, zk) :: l2, g)) /\ aeq y (getvalue zk).
Proof.
  intros S Sz L F C. apply eval_scalar; auto. assert (F1 := le_all _ _ _ _ s S L). apply isclose_R in C. destruct l2 as [|[t2 z2] l3]; [rewrite retrieve1_end by auto|rewrite retrieve1_between]; try (rewrite C; auto); auto.
  apply Forall_forall. intros [t z] I. apply (F t z I).
Qed.
(** between two stored times, if not within tolerance of the first: new_inside decides, whether or not s is within tolerance of the second *)
Theorem C20_below (l1 : list (R * Z)) tk zk t2 z2 l3 s g zk' zn g' : sorted_times (l1 ++ (tk, zk) :: (t2, z2) :: l3) -> tk <= s < t2 -> ~ close rtol s tk ->
  new_inside zk z2 tk t2 s g = (Ok (zk', Some zn), g') -> shp (getvalue zn) = zs ->
  exists y, eval (ascalar s) None (l1 ++ (tk, zk) :: (t2, z2) :: l3, g) = (Ok y, (l1 ++ (tk, zk') :: (s, zn) :: (t2, z2) :: l3, g')) /\ aeq y (getvalue zn).
Proof.
  intros S [L1 L2] C E Sz. apply eval_scalar; auto. apply isclose_R_false in C. rewrite retrieve1_between.
  - rewrite C, E. auto.
  - apply (le_all _ _ _ _ s S L1).
  - apply (lt_all (l1 ++ [(tk, zk)]) t2 z2 l3); auto. rewrite <- app_assoc. exact S.
Qed.
(** before all stored times, if not within tolerance of the last one: new_outside decides, whether or not s is within tolerance of the first *)
Theorem C20_before t2 z2 (l3 : list (R * Z)) tl zl s g z2' zn g' : sorted_times ((t2, z2) :: l3) -> s < t2 -> last (map Some ((t2, z2) :: l3)) None = Some (tl, zl) -> ~ close rtol s tl ->
  new_outside z2 t2 s g = (Ok (z2', zn), g') -> shp (getvalue zn) = zs ->
  exists y, eval (ascalar s) None ((t2, z2) :: l3, g) = (Ok y, ((s, zn) :: (t2, z2') :: l3, g')) /\ aeq y (getvalue zn).
Proof.
  intros S L La C E Sz. apply eval_scalar; auto. apply isclose_R_false in C. destruct (memory_snoc ((t2, z2) :: l3)) as (l & [tl' zl'] & El); [discriminate|]. rewrite El, map_app in La. cbn [map] in La. rewrite last_last in La. injection La as -> ->.
  rewrite (retrieve1_start _ _ _ _ t2 z2 l3 l tl zl); auto; [rewrite C, E; auto|]. apply (lt_all [] t2 z2 l3); auto.
Qed.
(** without tolerance, a stored time matches if and only if it is equal: otherwise the methods that generate values are called *)
Theorem C20_exact_match (m : list (R * Z)) t z g : rtol = 0 -> sorted_times m -> In (t, z) m -> shp (getvalue z) = zs -> exists y, eval (ascalar t) None (m, g) = (Ok y, (m, g)) /\ aeq y (getvalue z).
Proof.
  intros R0 S I Sz. apply in_split in I. destruct I as (l1 & l2 & ->). destruct (sorted_app_cons _ _ _ _ S) as [_ F]. apply eval_scalar; auto. assert (F1 := le_all _ _ _ _ t S (Rle_refl t)). assert (C : isclose rtol t t = true) by (apply isclose_R; unfold close; rewrite R0; replace (t - t) with 0 by lra; rewrite Rabs_R0; lra).
  destruct l2 as [|[t2 z2] l3]; [rewrite retrieve1_end by auto|rewrite retrieve1_between by auto]; rewrite C; auto.
Qed.
Theorem C20_exact_new (m : list (R * Z)) s g : rtol = 0 -> sorted_times m -> m <> [] -> ~ In s (map fst m) ->
  (exists l1 tk zk, m = l1 ++ [(tk, zk)] /\ tk < s /\ ret s (m, g) = match new_outside zk tk s g with
     (Ok (zk', zn), g') => (Ok (getvalue zn), (l1 ++ [(tk, zk'); (s, zn)], g')) | (Err e, g') => (Err e, (m, g')) end) \/
  (exists t2 z2 l3, m = (t2, z2) :: l3 /\ s < t2 /\ ret s (m, g) = match new_outside z2 t2 s g with
     (Ok (z2', zn), g') => (Ok (getvalue zn), ((s, zn) :: (t2, z2') :: l3, g')) | (Err e, g') => (Err e, (m, g')) end) \/
  (exists l1 tk zk t2 z2 l3, m = l1 ++ (tk, zk) :: (t2, z2) :: l3 /\ tk < s < t2 /\ ret s (m, g) = match new_inside zk z2 tk t2 s g with
     | (Ok (zk', Some zn), g') => (Ok (getvalue zn), (l1 ++ (tk, zk') :: (s, zn) :: (t2, z2) :: l3, g'))
     | (Ok (zk', None), g') => (Ok (getvalue z2), (l1 ++ (tk, zk') :: (t2, z2) :: l3, g')) | (Err e, g') => (Err e, (m, g')) end).
Proof.
  intros R0 S Nm NI. assert (NC : forall t, In t (map fst m) -> isclose rtol s t = false).
  { intros t I. apply isclose_R_false. unfold close. rewrite R0, Rmult_0_l. intro Q. assert (P := Rabs_pos (s - t)). assert (s - t = 0) by (destruct (Req_dec (s - t) 0); auto; apply Rabs_pos_lt in H; lra). apply NI. replace s with t by lra. auto. }
  destruct (sorted_split m s S) as (l1 & l2 & -> & F1 & F2). rewrite map_app in NC, NI. destruct l1 as [|p l1'].
  - right; left. destruct l2 as [|[t2 z2] l3]; [elim Nm; auto|]. cbn [app] in *. exists t2, z2, l3. split; auto. split; [apply Forall_inv in F2; auto|]. destruct (memory_snoc ((t2, z2) :: l3)) as (l & [tl zl] & El); [discriminate|]. rewrite (retrieve1_start _ _ _ _ t2 z2 l3 l tl zl); auto.
    rewrite NC; auto. rewrite El. cbn [map app]. rewrite map_app. apply in_or_app. simpl. auto.
  - destruct (memory_snoc (p :: l1')) as (l & [tk zk] & El); [discriminate|]. rewrite El in *. clear p l1' El.
    assert (Lk : tk < s). { apply Forall_app in F1. destruct F1 as [_ F1]. apply Forall_inv in F1. cbn [fst] in F1. destruct F1 as [|F1]; auto. elim NI. rewrite map_app. apply in_or_app. left. apply in_or_app. simpl. auto. }
    assert (Ik : isclose rtol s tk = false) by (apply NC; rewrite map_app; apply in_or_app; left; apply in_or_app; simpl; auto).
    destruct l2 as [|[t2 z2] l3].
    + left. rewrite app_nil_r in *. exists l, tk, zk. split; auto. split; auto. rewrite retrieve1_end by auto. rewrite Ik. auto.
    + right; right. exists l, tk, zk, t2, z2, l3. rewrite <- app_assoc. cbn [app]. split; auto. split; [split; auto; apply Forall_inv in F2; auto|]. rewrite retrieve1_between by auto. rewrite Ik. auto.
Qed.

(** *** C62 *)
Variable same : arr B -> arr B -> Prop.
Hypothesis Dis : disciplined getvalue new_outside new_inside zs same.
Hypothesis rtol_pos : 0 <= rtol.
Variable stored : arr B -> Z.
Hypothesis Stored : forall x, getvalue (stored x) = x.
Variables (t0 : R) (z0 : arr B) (m0 : list (R * Z)) (g0 : G).
Hypothesis Start : true_new stored zs t0 z0 = Ok m0.
Local Notation hist := (history getvalue new_outside new_inside rtol zs sub d).
Local Notation indexed := (indexed_call getvalue new_outside new_inside rtol sub d zs).
Lemma picks_inb s key r ix jx : picks s key r ix jx -> inb r ix -> inb s jx.
Proof.
  clear. induction 1 as [s ix|d s i key r ix jx L H IH|d s a b c key r j ix jx N H IH]; intro I; auto.
  - specialize (IH I). constructor; [lia|exact IH].
  - inversion I; subst. constructor; [|apply IH; assumption]. apply (sliced_lt d a b c). apply nth_In. auto.
Qed.
Lemma key_ok_len s : forall key, key_ok s key -> (List.length key <= List.length s)%nat.
Proof. clear. induction s as [|e s IH]; intros [|k key] H; simpl; try lia; [destruct k; destruct H|]. destruct k; destruct H as [_ H]; specialize (IH _ H); lia. Qed.
Lemma scalar_shape s m g x st1 : hist (m0, g0) (m, g) -> eval (ascalar s) None (m, g) = (Ok x, st1) -> shp x = zs.
Proof using Dis rtol_pos Start Stored.
  intros H E. destruct (hist_state _ _ _ _ _ sub d _ Dis rtol_pos stored Stored t0 z0 m0 g0 Start m g H) as [W _]. destruct (scalar_eval _ _ _ _ _ sub d _ Dis _ _ _ _ E m g eq_refl W) as [(e & X)|(y & v & X & E1 & [A _])]; [discriminate|].
  injection X as <-. rewrite A. destruct st1. eapply query_shape; eauto.
Qed.
(** s[key] evaluated at a scalar time for which s has a value returns the entries of that value *)
Theorem C62_shared key s m g x st1 st2 : hist (m0, g0) (m, g) -> ~ fickle rtol m s -> eval (ascalar s) None (m, g) = (Ok x, st1) -> hist st1 st2 ->
  key_ok zs key -> (List.length key < List.length zs)%nat ->
  exists y, indexed key (ascalar s) None st2 = (Ok y, st2) /\ forall r ix jx, picks zs key r ix jx -> inb r ix -> shp y = r /\ dat y ix = dat x jx.
Proof using Dis rtol_pos Start Stored.
  intros H NF E H' K L. destruct (C18_same_value _ _ _ _ _ sub d _ Dis rtol_pos stored Stored t0 z0 m0 g0 Start m g s x st1 st2 H NF E H') as (u & Eu & [Au Hu]). assert (Sx := scalar_shape _ _ _ _ _ H E).
  assert (Su : shp u = zs) by congruence. destruct (index_shape_ok _ _ K) as (r & f & Ei & P & _). exists (mkArr r (fun ix => dat u (f ix))). split.
  - unfold indexed_call, dbind. rewrite Eu. unfold dres. rewrite Su. destruct (Nat.ltb_spec (List.length key) (List.length zs)); [|lia]. unfold index_arr. rewrite Su, Ei. reflexivity.
  - intros r' ix jx Pk I. destruct (P _ _ _ Pk) as [-> <-]. split; auto. cbn [dat]. apply Hu. rewrite Su. eapply picks_inb; eauto.
Qed.
(** new realizations by s[key] update the full extent of values *)
Theorem C62_generates key s m g y st1 st2 : hist (m0, g0) (m, g) -> ~ fickle rtol m s -> indexed key (ascalar s) None (m, g) = (Ok y, st1) -> hist st1 st2 ->
  exists x, eval (ascalar s) None st2 = (Ok x, st2) /\ shp x = zs /\ key_ok zs key /\ forall r ix jx, picks zs key r ix jx -> inb r ix -> shp y = r /\ dat y ix = dat x jx.
Proof using Dis rtol_pos Start Stored.
  intros H NF E H'. unfold indexed_call in E. apply dbind_state in E. destruct E as (o & st & E1 & E2). destruct o as [x0|e]; [|destruct E2; discriminate]. unfold dres in E2. injection E2 as E2 <-.
  destruct (C18_same_value _ _ _ _ _ sub d _ Dis rtol_pos stored Stored t0 z0 m0 g0 Start m g s x0 st st2 H NF E1 H') as (u & Eu & [Au Hu]). assert (Sx := scalar_shape _ _ _ _ _ H E1). exists u. split; auto. split; [congruence|].
  destruct (_ <? _)%nat; [|discriminate]. unfold index_arr in E2. rewrite Sx in E2. destruct (index_shape zs key) as [[r f]|e] eqn:Ei; [|discriminate]. cbv beta iota delta [rbind] in E2. injection E2 as <-.
  assert (K : key_ok zs key). { assert (D : forall s key, key_ok s key \/ ~ key_ok s key). { clear. induction s as [|e s IH]; intros [|k key]; simpl; auto; destruct k as [i|a b c]; auto.
      - destruct (IH key); [|tauto]. destruct (Z_le_dec 0 (from_end e i)); [|lia]. destruct (Z_lt_dec (from_end e i) (Z.of_nat e)); [auto|lia].
      - destruct (IH key); [|tauto]. destruct c as [[| |]|]; [right; intros [Q _]; auto|left|left|left]; split; auto; discriminate. }
    destruct (D zs key) as [|NK]; auto. destruct (index_shape_err _ _ NK) as (e & X). congruence. }
  split; auto. destruct (index_shape_ok _ _ K) as (r1 & f1 & Ei1 & P & _). rewrite Ei in Ei1. injection Ei1 as <- <-. intros r' ix jx Pk I. destruct (P _ _ _ Pk) as [-> <-]. split; auto. cbn [dat]. symmetry. apply Hu. rewrite Au, Sx. eapply picks_inb; eauto.
Qed.
End Memory.
