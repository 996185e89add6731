(** Lemmas on keyword arguments. *)
From Coq Require Import String List Arith Bool Lia.
From Verif Require Import Base M_sde M_args S_args.
Import ListNotations.

Section Dict.
Context {A : Type}.
Implicit Types d e : dict A.

Lemma lookup_In k d a : lookup k d = Some a -> In (k, a) d.
Proof.
  induction d as [|[k' b] d IH]; simpl; [discriminate|].
  destruct (String.eqb_spec k k'); intro H; [left; congruence|right; auto].
Qed.
Lemma lookup_None k d : lookup k d = None <-> ~ In k (keys d).
Proof.
  induction d as [|[k' b] d IH]; simpl; [tauto|].
  destruct (String.eqb_spec k k'); split; intro H; try discriminate.
  - exfalso. apply H. auto.
  - intros [E|E]; [congruence|]. apply IH in H. auto.
  - apply IH. tauto.
Qed.
Lemma In_key k a d : In (k, a) d -> In k (keys d).
Proof. intro H. apply in_map_iff. exists (k, a). auto. Qed.
Lemma key_lookup k d : In k (keys d) -> exists a, lookup k d = Some a.
Proof.
  intro H. destruct (lookup k d) as [a|] eqn:E; eauto. apply lookup_None in E. contradiction.
Qed.
Lemma In_lookup k d a : NoDup (keys d) -> In (k, a) d -> lookup k d = Some a.
Proof.
  induction d as [|[k' b] d IH]; simpl; [tauto|]. intros ND [E|E].
  - injection E as -> ->. rewrite String.eqb_refl. auto.
  - inversion ND; subst. destruct (String.eqb_spec k k'); [|auto]. subst. apply In_key in E. contradiction.
Qed.
Lemma lookup_dset k k' a d : lookup k (dset k' a d) = if String.eqb k k' then Some a else lookup k d.
Proof.
  induction d as [|[k2 b] d IH]; simpl; auto.
  destruct (String.eqb_spec k' k2); simpl.
  - subst. destruct (String.eqb_spec k k2); auto.
  - rewrite IH. destruct (String.eqb_spec k k2); auto. destruct (String.eqb_spec k k'); auto. congruence.
Qed.
Lemma keys_dset k k' a d : In k (keys (dset k' a d)) <-> k = k' \/ In k (keys d).
Proof.
  induction d as [|[k2 b] d IH]; simpl; [intuition|].
  destruct (String.eqb_spec k' k2); simpl; [subst; intuition|]. rewrite IH. intuition.
Qed.
Lemma dset_nodup k a d : NoDup (keys d) -> NoDup (keys (dset k a d)).
Proof.
  induction d as [|[k2 b] d IH]; simpl; intro H; [repeat constructor; auto|].
  inversion H as [|? ? N ND]; subst. destruct (String.eqb_spec k k2); simpl; [subst; constructor; auto|].
  constructor; [|auto]. rewrite keys_dset. intros [E|E]; [congruence|contradiction].
Qed.
Lemma dupdate_nodup e d : NoDup (keys d) -> NoDup (keys (dupdate d e)).
Proof.
  unfold dupdate. revert d. induction e as [|[k a] e IH]; intros d H; simpl; auto. apply IH, dset_nodup, H.
Qed.
Lemma lookup_dupdate e d k : NoDup (keys e) ->
  lookup k (dupdate d e) = match lookup k e with Some a => Some a | None => lookup k d end.
Proof.
  unfold dupdate. revert d. induction e as [|[k' a] e IH]; intros d H; simpl; auto.
  inversion H as [|? ? N ND]; subst. rewrite IH by auto. rewrite lookup_dset.
  destruct (String.eqb_spec k k') as [->|]; auto.
  destruct (lookup k' e) eqn:E; auto. apply lookup_In, In_key in E. contradiction.
Qed.
Lemma keys_dupdate e d k : In k (keys (dupdate d e)) <-> In k (keys e) \/ In k (keys d).
Proof.
  unfold dupdate. revert d. induction e as [|[k' a] e IH]; intros d; simpl; [tauto|].
  rewrite IH, keys_dset. intuition.
Qed.
Lemma In_iff_lookup k d a : NoDup (keys d) -> (In (k, a) d <-> lookup k d = Some a).
Proof. intro H. split; [apply In_lookup; auto|apply lookup_In]. Qed.

(** union of several *)
Lemma fold_keys Ds d k : In k (keys (fold_left dupdate Ds d)) <-> In k (keys d) \/ exists s, In s Ds /\ In k (keys s).
Proof.
  revert d. induction Ds as [|s Ds IH]; intro d; simpl; [firstorder|].
  rewrite IH, keys_dupdate. split.
  - intros [[H|H]|(s' & H1 & H2)]; eauto.
  - intros [H|(s' & [<-|H1] & H2)]; eauto.
Qed.
Lemma fold_nodup Ds d : NoDup (keys d) -> NoDup (keys (fold_left dupdate Ds d)).
Proof. revert d. induction Ds as [|s Ds IH]; intros d H; simpl; auto. apply IH, dupdate_nodup, H. Qed.
Lemma fold_In Ds : (forall s, In s Ds -> NoDup (keys s)) -> forall d k a, NoDup (keys d) ->
  In (k, a) (fold_left dupdate Ds d) -> In (k, a) d \/ exists s, In s Ds /\ In (k, a) s.
Proof.
  induction Ds as [|s Ds IH]; intros HN d k a H HI; simpl in *; auto.
  apply IH in HI; [|auto|apply dupdate_nodup; auto]. destruct HI as [HI|(s' & H1 & H2)]; [|eauto].
  apply In_lookup in HI; [|apply dupdate_nodup; auto]. rewrite lookup_dupdate in HI by auto.
  destruct (lookup k s) eqn:E.
  - injection HI as ->. right. exists s. split; auto. apply lookup_In; auto.
  - left. apply lookup_In; auto.
Qed.
Lemma mem_str_In k l : mem_str k l = true <-> In k l.
Proof.
  unfold mem_str. rewrite existsb_exists. split.
  - intros (x & H & E). apply String.eqb_eq in E. subst. auto.
  - intro H. exists k. split; auto. apply String.eqb_refl.
Qed.
Lemma get_args_In ks d k a : In (k, a) (get_args ks d) <-> In (k, a) d /\ In k ks.
Proof. unfold get_args. rewrite filter_In. simpl. rewrite mem_str_In. tauto. Qed.
Lemma get_args_keys ks d k : In k (keys (get_args ks d)) <-> In k (keys d) /\ In k ks.
Proof.
  unfold keys. rewrite !in_map_iff. split.
  - intros ([k' a] & <- & H). apply get_args_In in H. simpl. split; [|tauto]. exists (k', a). tauto.
  - intros [([k' a] & <- & H) H2]. exists (k', a). split; auto. apply get_args_In. auto.
Qed.
Lemma get_args_nodup ks d : NoDup (keys d) -> NoDup (keys (get_args ks d)).
Proof.
  induction d as [|[k a] d IH]; simpl; intro H; auto. inversion H as [|? ? N ND]; subst.
  destruct (mem_str k ks); simpl; auto. constructor; auto. intro HI. apply get_args_keys in HI. tauto.
Qed.
End Dict.

Lemma mapM_ok {A B} (f : A -> res B) l : (forall a, In a l -> exists b, f a = Ok b) -> exists bs, mapM f l = Ok bs.
Proof.
  induction l as [|a l IH]; intro H; simpl; eauto.
  destruct (H a (or_introl eq_refl)) as (b & ->). destruct IH as (bs & ->); [intros; apply H; right; auto|]. simpl. eauto.
Qed.
Lemma mapM_inv {A B} (f : A -> res B) l bs : mapM f l = Ok bs -> Forall2 (fun a b => f a = Ok b) l bs.
Proof.
  revert bs. induction l as [|a l IH]; intros bs H; simpl in H; [injection H as <-; constructor|].
  destruct (f a) eqn:E; simpl in H; [|discriminate]. destruct (mapM f l); simpl in H; [|discriminate].
  injection H as <-. constructor; auto.
Qed.
Lemma mapM_err {A B} (f : A -> res B) l e : mapM f l = Err e -> exists a, In a l /\ f a = Err e.
Proof.
  induction l as [|a l IH]; simpl; [discriminate|]. destruct (f a) eqn:E; simpl.
  - destruct (mapM f l); simpl; [discriminate|]. intro H. injection H as ->. destruct IH as (x & H & H2); eauto.
  - intro H. injection H as ->. eauto.
Qed.

Section E.
Context {D : Type}.
Variables (hashable : D -> bool) (veq : D -> D -> bool).
Hypothesis veq_refl : forall x, veq x x = true.
Hypothesis veq_sym : forall x y, veq x y = true -> veq y x = true.
Hypothesis veq_trans : forall x y z, veq x y = true -> veq y z = true -> veq x z = true.
Notation oveq := (oveq veq).
Notation pyset := (pyset veq).

Lemma oveq_refl a : oveq a a = true. Proof. destruct a; simpl; auto. Qed.
Lemma oveq_sym a b : oveq a b = true -> oveq b a = true. Proof. destruct a, b; simpl; auto. Qed.
Lemma oveq_trans a b c : oveq a b = true -> oveq b c = true -> oveq a c = true.
Proof. destruct a, b, c; simpl; try discriminate; eauto. Qed.

(** a set has one element at most if and only if all values are equal *)
Lemma pyset_one (l : list (option D)) : (Nat.ltb 1 (List.length (pyset l)) = false) <->
  forall a b, In a l -> In b l -> oveq a b = true.
Proof.
  unfold M_args.pyset. set (f := fun (s : list (option D)) x => if existsb (oveq x) s then s else (s ++ [x])%list).
  assert (G : forall l s, (exists r, fold_left f l s = (s ++ r)%list)).
  { induction l0 as [|a l0 IH]; intro s; simpl; [exists []; rewrite app_nil_r; auto|].
    destruct (IH (f s a)) as (r & ->). unfold f. destruct (existsb (oveq a) s); [eauto|].
    exists (a :: r). rewrite <- app_assoc. reflexivity. }
  assert (H1 : forall l x, (forall b, In b l -> oveq b x = true) -> fold_left f l [x] = [x]).
  { induction l0 as [|a l0 IH]; intros x H; simpl; auto.
    unfold f at 2. simpl. rewrite (H a) by (left; auto). simpl. apply IH. intros; apply H; right; auto. }
  destruct l as [|a l]; [simpl; split; auto; tauto|]. simpl fold_left. change (f [] a) with [a].
  split.
  - intros HL.
    assert (HA : forall b, In b l -> oveq b a = true).
    { clear -HL G. revert a HL. induction l as [|c l IH]; intros a HL b HB; [destruct HB|].
      simpl in HL. unfold f at 2 in HL. simpl in HL.
      destruct (oveq c a) eqn:E; simpl in HL.
      - destruct HB as [<-|HB]; eauto.
      - exfalso. destruct (G l [a; c]) as (r & Hr). rewrite Hr in HL. simpl in HL. discriminate. }
    intros x y Hx Hy.
    assert (HX : oveq x a = true) by (destruct Hx as [<-|Hx]; [apply oveq_refl|auto]).
    assert (HY : oveq y a = true) by (destruct Hy as [<-|Hy]; [apply oveq_refl|auto]).
    eapply oveq_trans; [exact HX|]. apply oveq_sym; auto.
  - intro H. rewrite H1; [reflexivity|]. intros b Hb. apply H; simpl; auto.
Qed.

Variables (nvars : nat) (ids : list string) (setup : string -> option (sig D)) (init sde more : sig D).
Hypothesis SIGS : sigs_ok nvars ids setup init sde more.
Notation declares := (declares nvars ids setup init sde more).
Notation declared := (declared nvars ids setup init sde more).

Definition getsrc id : res (string * sig D) := match setup id with Some s => Ok (id, s) | None => Err ValueError end.
Lemma srcs_ok : (forall id, In id ids -> setup id <> None) <-> exists srcs, mapM getsrc ids = Ok srcs.
Proof.
  split.
  - intro H. apply mapM_ok. intros id HI. unfold getsrc. destruct (setup id) eqn:E; eauto. exfalso. eapply H; eauto.
  - intros (srcs & H) id HI E. apply mapM_inv in H.
    apply In_nth_error in HI. destruct HI as (n & Hn).
    revert srcs n H Hn. generalize ids. induction ids0 as [|a l IH]; intros srcs n F Hn; destruct n; try discriminate.
    + injection Hn as ->. inversion F; subst. unfold getsrc in H1. rewrite E in H1. discriminate.
    + inversion F; subst. simpl in Hn. eapply IH; eauto.
Qed.
Lemma srcs_In srcs : mapM getsrc ids = Ok srcs -> forall id s, In (id, s) srcs <-> In id ids /\ setup id = Some s.
Proof.
  intro H. apply mapM_inv in H. revert H. generalize ids as l0. intros l0 H.
  induction H as [|a b l l' E F IH]; intros id s; simpl; [tauto|].
  unfold getsrc in E. destruct (setup a) eqn:EA; [|discriminate]. injection E as <-. rewrite IH. split.
  - intros [E|[H1 H2]]; [injection E as <- <-; auto|auto].
  - intros [[->|H1] H2]; [left; congruence|auto].
Qed.
Lemma Ds_declares srcs : mapM getsrc ids = Ok srcs ->
  forall s, In s (map snd srcs ++ [skipn 2 init; skipn (1 + nvars) sde; more])%list <-> declares s.
Proof.
  intros H s. rewrite in_app_iff, in_map_iff. split.
  - intros [([id s'] & <- & HI)|HI].
    + apply (srcs_In _ H) in HI. simpl. eapply dec_src; apply HI.
    + destruct HI as [<-|[<-|[<-|[]]]]; constructor.
  - intros [id s' HI E| | |]; simpl; auto. left. exists (id, s'). split; auto. apply (srcs_In _ H). auto.
Qed.

Lemma defaults_In (Ds : list (sig D)) k z : In z (defaults Ds k) <-> exists s, In s Ds /\ lookup k s = Some z.
Proof.
  unfold defaults. rewrite in_flat_map. split.
  - intros (s & H & HZ). exists s. destruct (lookup k s); [|destruct HZ]. destruct HZ as [->|[]]. auto.
  - intros (s & H & E). exists s. rewrite E. simpl. auto.
Qed.

(** what [inspect_args] does *)
Lemma inspect_spec :
  (exists e, inspect_args hashable veq nvars ids setup init sde more = Ok e) <->
  ((forall id, In id ids -> setup id <> None) /\ hashables nvars ids setup init sde more hashable /\
   compatible nvars ids setup init sde more veq).
Proof.
  rewrite srcs_ok. unfold inspect_args. fold getsrc.
  destruct (mapM getsrc ids) as [srcs|] eqn:ES; simpl rbind; cbv zeta.
  2:{ split; [intros (e0 & H); discriminate|intros ((? & H) & _); discriminate]. }
  set (Ds := (map snd srcs ++ _)%list).
  assert (HD : forall s, In s Ds <-> declares s) by (apply Ds_declares; auto).
  assert (DK : forall k d, declared k d <-> In d (defaults Ds k)).
  { intros k d. rewrite defaults_In. unfold S_args.declared. split; intros (s & H1 & H2); exists s.
    - split; [apply HD; auto|]. apply In_lookup; [apply SIGS; auto|auto].
    - apply HD in H1. split; auto. apply lookup_In; auto. }
  assert (KK : forall k, In k (keys (fold_left dupdate Ds [])) <-> exists d, declared k d).
  { intro k. rewrite fold_keys. simpl. split.
    - intros [[]|(s & H1 & H2)]. destruct (key_lookup _ _ H2) as (d & E). exists d. exists s. split; [apply HD; auto|].
      apply lookup_In; auto.
    - intros (d & s & H1 & H2). right. exists s. split; [apply HD; auto|]. eapply In_key; eauto. }
  assert (B1 : forallb (fun k => forallb (ohashable hashable) (defaults Ds k)) (keys (fold_left dupdate Ds [])) = true <->
               hashables nvars ids setup init sde more hashable).
  { rewrite forallb_forall. split.
    - intros H k x Hk. assert (K : In k (keys (fold_left dupdate Ds []))) by (apply KK; eauto).
      specialize (H k K). rewrite forallb_forall in H. apply DK in Hk. exact (H _ Hk).
    - intros H k Hk. rewrite forallb_forall. intros [x|] Hx; simpl; auto. apply (H k), DK; auto. }
  assert (B2 : existsb (fun k => Nat.ltb 1 (List.length (pyset (defaults Ds k)))) (keys (fold_left dupdate Ds [])) = false <->
               compatible nvars ids setup init sde more veq).
  { split.
    - intros H k d1 d2 H1 H2.
      assert (HB : Nat.ltb 1 (List.length (pyset (defaults Ds k))) = false).
      { apply not_true_iff_false. intro HT. apply not_true_iff_false in H. apply H, existsb_exists.
        exists k. split; auto. apply KK; eauto. }
      rewrite pyset_one in HB. specialize (HB d1 d2 (proj1 (DK _ _) H1) (proj1 (DK _ _) H2)).
      destruct d1, d2; simpl in HB; auto; discriminate.
    - intros H. apply not_true_iff_false. intro HT. apply existsb_exists in HT. destruct HT as (k & Hk & HB).
      assert (HB2 : Nat.ltb 1 (List.length (pyset (defaults Ds k))) = false).
      { apply pyset_one. intros a b Ha Hb. specialize (H k a b (proj2 (DK _ _) Ha) (proj2 (DK _ _) Hb)).
        destruct a, b; simpl; auto; destruct H. }
      congruence. }
  destruct (forallb _ _) eqn:E1.
  - destruct (existsb _ _) eqn:E2.
    + split; [intros (e & H); discriminate|]. intros (_ & _ & H). apply B2 in H. discriminate.
    + split; [intros _|eauto]. split; eauto. split; [apply B1; auto|apply B2; auto].
  - split; [intros (e & H); discriminate|]. intros (_ & H & _). apply B1 in H. discriminate.
Qed.

Lemma inspect_inv e : inspect_args hashable veq nvars ids setup init sde more = Ok e ->
  NoDup (keys (ex_args e)) /\
  (forall k, In k (keys (ex_args e)) <-> exists d, declared k d) /\
  (forall k d, In (k, d) (ex_args e) -> declared k d) /\
  Forall2 (fun id p => fst p = id /\ exists s, setup id = Some s /\ snd p = keys s) ids (ex_src e) /\
  ex_init e = keys (skipn 2 init) /\ ex_sde e = keys (skipn (1 + nvars) sde) /\ ex_more e = keys more.
Proof.
  unfold inspect_args. fold getsrc.
  destruct (mapM getsrc ids) as [srcs|] eqn:ES; simpl rbind; cbv zeta; [|discriminate].
  set (Ds := (map snd srcs ++ _)%list).
  assert (HD : forall s, In s Ds <-> declares s) by (apply Ds_declares; auto).
  destruct (forallb _ _); [|discriminate]. destruct (existsb _ _); [discriminate|].
  intro H. injection H as <-. simpl ex_args. simpl ex_src. simpl ex_init. simpl ex_sde. simpl ex_more.
  split; [apply fold_nodup; constructor|]. split.
  { intro k. rewrite fold_keys. simpl. split.
    - intros [[]|(s & H1 & H2)]. destruct (key_lookup _ _ H2) as (d & E). exists d. exists s. split; [apply HD; auto|].
      apply lookup_In; auto.
    - intros (d & s & H1 & H2). right. exists s. split; [apply HD; auto|]. eapply In_key; eauto. }
  split.
  { intros k d HI. apply fold_In in HI; [|intros s Hs; apply SIGS, HD; auto|constructor].
    destruct HI as [[]|(s & H1 & H2)]. exists s. split; auto. apply HD; auto. }
  split; [|auto].
  apply mapM_inv in ES. clear -ES. revert ES. generalize ids as l0. intros l0 ES. induction ES as [|a b l l' E F IH]; simpl; constructor; auto.
  unfold getsrc in E. destruct (setup a) eqn:EA; [|discriminate]. injection E as <-. simpl. eauto.
Qed.

Lemma inspect_err x : inspect_args hashable veq nvars ids setup init sde more = Err x ->
  (x = ValueError /\ exists id, In id ids /\ setup id = None) \/
  (x = TypeError /\ forall id, In id ids -> setup id <> None).
Proof.
  unfold inspect_args. fold getsrc.
  destruct (mapM getsrc ids) as [srcs|] eqn:ES; simpl rbind; cbv zeta.
  - intro H. right. split; [|apply srcs_ok; eauto].
    destruct (forallb _ _); [|congruence]. destruct (existsb _ _); congruence.
  - intro H. injection H as <-. left. apply mapM_err in ES. destruct ES as (id & HI & E).
    unfold getsrc in E. destruct (setup id) eqn:ED; [discriminate|]. split; [congruence|eauto].
Qed.

(** consolidation *)
Lemma consolidate_spec (exp : sig D) args : NoDup (keys exp) -> NoDup (keys args) ->
  (exists a, consolidate exp args = Ok a) <->
  ((forall k, In k (keys args) -> In k (keys exp)) /\
   forall k, In k (keys exp) -> exists v, In (k, Some v) args \/ (~ In k (keys args) /\ In (k, Some v) exp)).
Proof.
  intros NE NA. unfold consolidate.
  assert (HL : forall k, lookup k (dupdate exp args) = match lookup k args with Some a => Some a | None => lookup k exp end)
    by (intro; apply lookup_dupdate; auto).
  assert (NU : NoDup (keys (dupdate exp args))) by (apply dupdate_nodup; auto).
  destruct (existsb _ _) eqn:EU.
  - split; [intros (a & H); discriminate|]. intros [H _]. apply existsb_exists in EU.
    destruct EU as (k & Hk & EB). apply negb_true_iff in EB. apply not_true_iff_false in EB. exfalso. apply EB, mem_str_In.
    apply keys_dupdate in Hk. destruct Hk; auto.
  - assert (H1 : forall k, In k (keys args) -> In k (keys exp)).
    { intros k Hk. destruct (mem_str k (keys exp)) eqn:EM; [apply mem_str_In; auto|].
      exfalso. apply not_true_iff_false in EU. apply EU, existsb_exists. exists k. rewrite EM. split; auto.
      apply keys_dupdate. auto. }
    split.
    + intros (a & H). split; auto. intros k Hk. apply mapM_inv in H.
      assert (HK : In k (keys (dupdate exp args))) by (apply keys_dupdate; auto).
      destruct (key_lookup _ _ HK) as (z & EZ). pose proof (lookup_In _ _ _ EZ) as HI.
      assert (exists v, z = Some v) as (v & ->).
      { clear -H HI. induction H as [|p q l l' E F IH]; [destruct HI|]. destruct HI as [->|HI]; auto.
        simpl in E. destruct z; [eauto|discriminate]. }
      exists v. rewrite HL in EZ. destruct (lookup k args) eqn:EA.
      * left. injection EZ as ->. apply lookup_In; auto.
      * right. split; [apply lookup_None; auto|apply lookup_In; auto].
    + intros [_ H]. apply mapM_ok. intros [k z] HI. simpl.
      assert (HK : In k (keys exp)) by (apply In_key, keys_dupdate in HI; destruct HI; auto).
      destruct (H k HK) as (v & HV). apply In_lookup in HI; auto. rewrite HL in HI. destruct HV as [HV|[HN HV]].
      * apply In_lookup in HV; auto. rewrite HV in HI. injection HI as <-. eauto.
      * apply lookup_None in HN. rewrite HN in HI. apply In_lookup in HV; auto. rewrite HV in HI. injection HI as <-. eauto.
Qed.
Lemma consolidate_inv (exp : sig D) args a : NoDup (keys exp) -> NoDup (keys args) -> consolidate exp args = Ok a ->
  NoDup (keys a) /\ (forall k, In k (keys a) <-> In k (keys exp)) /\
  forall k v, In (k, v) a <-> In (k, Some v) args \/ (~ In k (keys args) /\ In (k, Some v) exp).
Proof.
  intros NE NA H. pose proof (proj1 (consolidate_spec exp args NE NA) (ex_intro _ a H)) as [H1 _].
  unfold consolidate in H. destruct (existsb _ _); [discriminate|].
  assert (NU : NoDup (keys (dupdate exp args))) by (apply dupdate_nodup; auto).
  apply mapM_inv in H.
  assert (KE : keys a = keys (dupdate exp args)).
  { clear -H. induction H as [|[k z] q l l' E F IH]; simpl; auto. simpl in E. destruct z; [|discriminate].
    injection E as <-. simpl. f_equal; auto. }
  assert (IE : forall k v, In (k, v) a <-> In (k, Some v) (dupdate exp args)).
  { clear -H. induction H as [|[k z] q l l' E F IH]; intros k' v; simpl; [tauto|]. simpl in E. destruct z; [|discriminate].
    injection E as <-. rewrite IH. intuition congruence. }
  split; [rewrite KE; auto|]. split.
  - intro k. rewrite KE, keys_dupdate. split; [intros [Hk|Hk]; auto|auto].
  - intros k v. rewrite IE, In_iff_lookup by auto. rewrite lookup_dupdate by auto. destruct (lookup k args) eqn:E.
    + split.
      * intro E2. injection E2 as ->. left. apply lookup_In; auto.
      * intros [Hv|[Hn _]].
        -- apply In_lookup in Hv; auto. congruence.
        -- exfalso. apply Hn. apply lookup_In, In_key in E. auto.
    + apply lookup_None in E. split.
      * intro E2. right. split; auto. apply lookup_In; auto.
      * intros [Hv|[_ Hv]]; [apply In_key in Hv; contradiction|apply In_lookup; auto].
Qed.
Lemma consolidate_err (exp : sig D) args x : consolidate exp args = Err x -> x = TypeError.
Proof.
  unfold consolidate. destruct (existsb _ _); [congruence|]. intro H. apply mapM_err in H.
  destruct H as ([k z] & _ & E). simpl in E. destruct z; congruence.
Qed.

(** preparation of the values *)
Lemma prep_spec {A} (f : A -> res A) ks (d d' : dict A) : NoDup (keys d) -> prep f ks d = Ok d' ->
  NoDup (keys d') /\ (forall k, In k (keys d') <-> In k (keys d)) /\
  forall k v', In (k, v') d' <-> exists v, In (k, v) d /\ if mem_str k ks then f v = Ok v' else v' = v.
Proof.
  intros ND H. unfold prep in H. destruct (mapM _ _) as [new|] eqn:EM in H; [|discriminate].
  simpl in H. injection H as <-. apply mapM_inv in EM.
  assert (KN : keys new = keys (get_args ks d)).
  { clear -EM. induction EM as [|[k z] q l l' E F IH]; simpl; auto. simpl in E. destruct (f z); [|discriminate].
    injection E as <-. simpl. f_equal; auto. }
  assert (NG : NoDup (keys (get_args ks d))) by (apply get_args_nodup; auto).
  assert (NN : NoDup (keys new)) by (rewrite KN; auto).
  assert (IN : forall k v', In (k, v') new <-> exists v, In (k, v) (get_args ks d) /\ f v = Ok v').
  { clear -EM. induction EM as [|[k z] q l l' E F IH]; intros k' v'; simpl; [firstorder|].
    simpl in E. destruct (f z) eqn:EF; [|discriminate]. injection E as <-. rewrite IH. split.
    - intros [E2|(v & H1 & H2)]; [injection E2 as <- <-; eauto|eauto].
    - intros (v & [E2|H1] & H2); [injection E2 as <- <-; left; congruence|eauto]. }
  split; [apply dupdate_nodup; auto|]. split.
  - intro k. rewrite keys_dupdate, KN, get_args_keys. tauto.
  - intros k v'. rewrite In_iff_lookup by (apply dupdate_nodup; auto). rewrite lookup_dupdate by auto.
    destruct (lookup k new) eqn:EL.
    + pose proof (lookup_In _ _ _ EL) as HI. apply IN in HI. destruct HI as (v & HG & HF).
      apply get_args_In in HG. destruct HG as [HG HK]. apply mem_str_In in HK. rewrite HK. split.
      * intro E. injection E as ->. eauto.
      * intros (v2 & H1 & H2). apply In_lookup in H1; auto. apply In_lookup in HG; auto. congruence.
    + apply lookup_None in EL. rewrite KN, get_args_keys in EL. split.
      * intro E. apply lookup_In in E. exists v'. split; auto. destruct (mem_str k ks) eqn:EK; auto.
        apply mem_str_In in EK. apply In_key in E. exfalso. auto.
      * intros (v & H1 & H2). pose proof (In_key _ _ _ H1). destruct (mem_str k ks) eqn:EK.
        -- apply mem_str_In in EK. exfalso. auto.
        -- subst. apply In_lookup; auto.
Qed.
Lemma prep_err {A} (f : A -> res A) ks (d : dict A) x : prep f ks d = Err x ->
  exists k v, In (k, v) d /\ In k ks /\ f v = Err x.
Proof.
  unfold prep. destruct (mapM _ _) as [new|] eqn:EM; [discriminate|]. simpl. intro H. injection H as ->.
  apply mapM_err in EM. destruct EM as ([k v] & HI & E). apply get_args_In in HI. exists k, v. simpl in E.
  destruct (f v) eqn:EF; [discriminate|]. injection E as ->. tauto.
Qed.
End E.
