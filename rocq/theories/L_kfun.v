(** Lemmas on kfunc. *)
From Coq Require Import String List Arith Bool ZArith Lia.
From Verif Require Import Base M_sde M_args S_args L_args M_kfun S_kfun.
Import ListNotations.

Lemma overrides_app {V} (ds : list (dict V)) d k :
  overrides (ds ++ [d]) k = match lookup k d with Some v => Some v | None => overrides ds k end.
Proof.
  induction ds as [|e ds IH]; simpl; [destruct (lookup k d); auto|].
  rewrite IH. destruct (lookup k d); auto.
Qed.
Lemma upd_last_app {A} (h : list A) a b : upd (h ++ [a]) (length h) b = h ++ [b].
Proof. induction h; simpl; congruence. Qed.
Lemma nth_upd {A} (l : list A) i j a : nth_error (upd l i a) j =
  if Nat.eqb j i then match nth_error l i with Some _ => Some a | None => None end else nth_error l j.
Proof. revert i j. induction l as [|b l IH]; intros [|i] [|j]; simpl; auto. destruct (Nat.eqb j i); auto. Qed.

Section L.
Context {V W S : Type}.
Variable c : kcls V W S.
Notation heap := (@heap V S).

Lemma is_call_iff k : is_call c k = true <-> is_var c k.
Proof. apply mem_str_In. Qed.
Lemma filter_keys_in {A} (p : string * A -> bool) (d : dict A) k a : In (k, a) (filter p d) <-> In (k, a) d /\ p (k, a) = true.
Proof. apply filter_In. Qed.
Lemma filter_nodup {A} (p : string * A -> bool) (d : dict A) : NoDup (M_args.keys d) -> NoDup (M_args.keys (filter p d)).
Proof.
  induction d as [|[k a] d IH]; simpl; intro H; auto. inversion H as [|? ? N ND]; subst.
  destruct (p (k, a)); simpl; auto. constructor; auto. intro HI. apply N.
  apply in_map_iff in HI. destruct HI as ([k' a'] & E & HI). simpl in E. subst. apply filter_In in HI.
  apply in_map_iff. exists (k, a'). tauto.
Qed.
Lemma init_all (kw : dict V) : no_vars c kw -> init_args c kw = kw /\ call_args c kw = [].
Proof.
  unfold init_args, call_args, no_vars. induction kw as [|[k a] kw IH]; intro H; simpl; auto.
  assert (E : is_call c k = false).
  { apply not_true_iff_false. rewrite is_call_iff. apply H. simpl; auto. }
  rewrite E. simpl. destruct IH as [-> ->]; auto. intros k' Hk. apply H. simpl; auto.
Qed.
Lemma call_all (kw : dict V) : only_vars c kw -> init_args c kw = [] /\ call_args c kw = kw.
Proof.
  unfold init_args, call_args, only_vars. induction kw as [|[k a] kw IH]; intro H; simpl; auto.
  assert (E : is_call c k = true) by (apply is_call_iff, H; simpl; auto).
  rewrite E. simpl. destruct IH as [-> ->]; auto. intros k' Hk. apply H. simpl; auto.
Qed.
Lemma call_nil_no_vars (kw : dict V) : call_args c kw = [] -> no_vars c kw.
Proof.
  unfold call_args. induction kw as [|[k a] kw IH]; simpl; intros H k' Hk; [destruct Hk|].
  destruct (is_call c k) eqn:E; [discriminate|]. destruct Hk as [<-|Hk]; [|apply IH; auto].
  simpl. intro HV. apply is_call_iff in HV. congruence.
Qed.
Lemma split_init_keys kw : no_vars c (init_args c kw).
Proof.
  intros k Hk HV. apply in_map_iff in Hk. destruct Hk as ([k' a] & <- & HI). apply filter_In in HI.
  destruct HI as [_ E]. apply is_call_iff in HV. simpl in *. rewrite HV in E. discriminate.
Qed.
Lemma split_call_keys kw : only_vars c (call_args c kw).
Proof.
  intros k Hk. apply in_map_iff in Hk. destruct Hk as ([k' a] & <- & HI). apply filter_In in HI.
  apply is_call_iff. apply HI.
Qed.

(** results of [make] *)
Lemma make_obj w (h : heap) p par vars ckw w' h' id : make c w h p par vars ckw = (w', h', Ok (OObj id)) ->
  vars = [] /\ ckw = [] /\ id = length h /\ exists s, kc_init c w p = (w', Ok s) /\ h' = h ++ [mkObj p par s].
Proof.
  unfold make. destruct (kc_init c w p) as [w1 [s|e]] eqn:E; [|intro H; discriminate].
  destruct vars as [|v vars], ckw as [|q ckw]; simpl; intro H;
    try (destruct (kc_call c w1 s _ _) as [w2 [s' [r|e]]]; discriminate).
  injection H as <- <- <-. split; auto. split; auto. split; auto. exists s. auto.
Qed.
Lemma make_grows w (h : heap) p par vars ckw : exists ext, snd (fst (make c w h p par vars ckw)) = h ++ ext.
Proof.
  unfold make. destruct (kc_init c w p) as [w1 [s|e]]; [|exists []; rewrite app_nil_r; auto].
  destruct (nonempty vars || nonempty ckw); [|simpl; eauto].
  destruct (kc_call c w1 s vars ckw) as [w2 [s' r]]. simpl. eauto.
Qed.
Lemma make_raw w (h : heap) p par vars ckw : nonempty vars || nonempty ckw = true ->
  let '(w', _, r) := make c w h p par vars ckw in
  exists r', raw c w p vars ckw = (w', r') /\ r = rmap OVal r'.
Proof.
  intro NE. unfold make, raw. destruct (kc_init c w p) as [w1 [s|e]].
  - rewrite NE. destruct (kc_call c w1 s vars ckw) as [w2 [s' r]]. exists r. auto.
  - exists (Err e). auto.
Qed.

(** chains *)
Lemma made_spec w h ds w' h' id : made c w h ds w' h' id -> Forall (fun d => NoDup (map fst d)) ds ->
  exists o w1, nth_error h' id = Some o /\ NoDup (map fst (o_params o)) /\
    (forall k, lookup k (o_params o) = overrides ds k) /\ no_vars c (o_params o) /\
    kc_init c w1 (o_params o) = (w', Ok (o_state o)).
Proof.
  intro H. induction H as [a w' h' id E|ds b w1 h1 id1 w2 h2 id2 M IH E]; intro ND.
  - unfold kf_new in E. apply make_obj in E. destruct E as (_ & EC & -> & s & EI & ->).
    pose proof (call_nil_no_vars _ EC) as NV. destruct (init_all _ NV) as [EA _]. rewrite EA in *.
    exists (mkObj a None s), w. split. { rewrite nth_error_app2, Nat.sub_diag by lia. reflexivity. }
    simpl. inversion ND; subst. repeat split; auto.
  - apply Forall_app in ND. destruct ND as [ND NB]. inversion NB as [|? ? NB' _]; subst.
    destruct (IH ND) as (o & w0 & EO & NO & HL & NV & _). unfold kf_call in E. rewrite EO in E.
    destruct (nonempty (init_args c b)) eqn:NE.
    2:{ destruct (kc_call c w1 (o_state o) [] (call_args c b)) as [? [? [r|e]]]; discriminate. }
    apply make_obj in E. destruct E as (_ & EC & -> & s & EI & ->).
    pose proof (call_nil_no_vars _ EC) as NVB. destruct (init_all _ NVB) as [EA _]. rewrite EA in *.
    exists (mkObj (dupdate (o_params o) b) (Some id1) s), w1.
    split. { rewrite nth_error_app2, Nat.sub_diag by lia. reflexivity. }
    simpl. split; [apply dupdate_nodup; auto|]. split; [|split; auto].
    + intro k. rewrite lookup_dupdate by auto. rewrite overrides_app, HL. reflexivity.
    + intros k Hk. change (In k (M_args.keys (dupdate (o_params o) b))) in Hk. apply keys_dupdate in Hk.
      destruct Hk; [apply NVB|apply NV]; auto.
Qed.

(** heaps grow, and only states change *)
Definition same_but_state (o o' : obj V S) : Prop := o_params o' = o_params o /\ o_parent o' = o_parent o.
Lemma kf_call_heap w (h : heap) id vars kw :
  (exists ext, snd (fst (kf_call c w h id vars kw)) = h ++ ext) \/
  (init_args c kw = [] /\ exists o s', nth_error h id = Some o /\
     s' = fst (snd (kc_call c w (o_state o) vars (call_args c kw))) /\
     snd (fst (kf_call c w h id vars kw)) = upd h id (mkObj (o_params o) (o_parent o) s')).
Proof.
  unfold kf_call. destruct (nth_error h id) as [o|] eqn:E; [|left; exists []; rewrite app_nil_r; auto].
  destruct (init_args c kw) eqn:EI; simpl nonempty; cbv iota; [right|left; apply make_grows].
  split; auto. destruct (kc_call c w (o_state o) vars (call_args c kw)) as [w1 [s' r]] eqn:EC. simpl.
  exists o, s'. rewrite EC. auto.
Qed.
Lemma run1_keeps w (h : heap) q : forall id o, nth_error h id = Some o ->
  exists o', nth_error (snd (run1 c w h q)) id = Some o' /\ same_but_state o o'.
Proof.
  intros id o E. assert (G : forall ext, exists o', nth_error (h ++ ext) id = Some o' /\ same_but_state o o').
  { intro ext. exists o. split; [|split; auto]. rewrite nth_error_app1; auto. apply nth_error_Some; congruence. }
  destruct q as [vars kw|id1 vars kw]; simpl.
  - unfold kf_new. destruct (make_grows w h (init_args c kw) None vars (call_args c kw)) as (ext & ->). auto.
  - destruct (kf_call_heap w h id1 vars kw) as [(ext & ->)|(_ & o1 & s' & E1 & _ & ->)]; auto.
    rewrite nth_upd. destruct (Nat.eqb_spec id id1) as [->|N].
    + rewrite E1. assert (o1 = o) by congruence. subst o1. eexists. split; [reflexivity|]. split; auto.
    + exists o. split; auto. split; auto.
Qed.
Lemma run_ops_keeps l : forall w (h : heap) id o, nth_error h id = Some o ->
  exists o', nth_error (snd (run_ops c w h l)) id = Some o' /\ same_but_state o o'.
Proof.
  induction l as [|q l IH]; intros w h id o E; simpl.
  - exists o. split; auto. split; auto.
  - destruct (run1_keeps w h q id o E) as (o1 & E1 & S1). destruct (run1 c w h q) as [w1 h1]. simpl in E1.
    destruct (IH w1 h1 id o1 E1) as (o2 & E2 & S2). exists o2. split; auto.
    destruct S1, S2. split; congruence.
Qed.
Lemma run1_same w (h : heap) q : stateless c -> forall id o, nth_error h id = Some o ->
  nth_error (snd (run1 c w h q)) id = Some o.
Proof.
  intros PU id o E. assert (G : forall ext, nth_error (h ++ ext) id = Some o).
  { intro ext. rewrite nth_error_app1; auto. apply nth_error_Some; congruence. }
  destruct q as [vars kw|id1 vars kw]; simpl.
  - unfold kf_new. destruct (make_grows w h (init_args c kw) None vars (call_args c kw)) as (ext & ->). auto.
  - destruct (kf_call_heap w h id1 vars kw) as [(ext & ->)|(_ & o1 & s' & E1 & ES & ->)]; auto.
    rewrite nth_upd. destruct (Nat.eqb_spec id id1) as [->|N]; auto.
    rewrite E1. assert (o1 = o) by congruence. subst o1. rewrite PU in ES. subst s'. destruct o; auto.
Qed.
Lemma run_ops_same l : stateless c -> forall w (h : heap) id o, nth_error h id = Some o ->
  nth_error (snd (run_ops c w h l)) id = Some o.
Proof.
  intro PU. induction l as [|q l IH]; intros w h id o E; simpl; auto.
  pose proof (run1_same w h q PU id o E) as E1. destruct (run1 c w h q) as [w1 h1]. simpl in E1. auto.
Qed.
End L.

Lemma existsb_disj (l1 l2 : list string) : existsb (fun n => mem_str n l2) l1 = false <-> forall n, In n l1 -> ~ In n l2.
Proof.
  rewrite <- not_true_iff_false, existsb_exists. split.
  - intros H n H1 H2. apply H. exists n. split; auto. apply mem_str_In; auto.
  - intros H (n & H1 & H2). apply mem_str_In in H2. apply (H n); auto.
Qed.
Lemma kind_eqb_eq a b : kind_eqb a b = true <-> a = b.
Proof. destruct a, b; simpl; split; congruence. Qed.
