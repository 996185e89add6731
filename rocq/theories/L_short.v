(** Lemmas on documented parameters and shortcuts. *)
From Coq Require Import String List Arith Bool ZArith QArith Permutation Lia.
From Verif Require Import Base M_sde M_args L_args M_kfun S_kfun L_kfun L_nd M_short S_short.
Import ListNotations.

(** *** identity of values *)
Definition q_sb (x y : Q) : bool := (Z.eqb (Qnum x) (Qnum y) && Pos.eqb (Qden x) (Qden y))%bool.
Fixpoint qs_sb (l1 l2 : list Q) : bool :=
  match l1, l2 with
  | [], [] => true
  | x :: l1', y :: l2' => (q_sb x y && qs_sb l1' l2')%bool
  | _, _ => false
  end.
Definition pyv_sb (a b : pyv) : bool :=
  match a, b with
  | PNone, PNone => true
  | PNum x, PNum y => q_sb x y
  | PTuple l1, PTuple l2 => qs_sb l1 l2
  | PText s, PText s' | PName s, PName s' => String.eqb s s'
  | PObj n, PObj m => Nat.eqb n m
  | _, _ => false
  end.
Lemma q_sb_eq x y : q_sb x y = true -> x = y.
Proof.
  destruct x as [a b], y as [c d]. unfold q_sb. simpl. intro H. apply andb_true_iff in H. destruct H as [H1 H2].
  apply Z.eqb_eq in H1. apply Pos.eqb_eq in H2. congruence.
Qed.
Lemma qs_sb_eq l1 : forall l2, qs_sb l1 l2 = true -> l1 = l2.
Proof.
  induction l1 as [|x l1 IH]; intros [|y l2] H; simpl in *; try discriminate; auto.
  apply andb_true_iff in H. destruct H as [H1 H2]. apply q_sb_eq in H1. apply IH in H2. congruence.
Qed.
Lemma pyv_sb_eq a b : pyv_sb a b = true -> a = b.
Proof.
  destruct a, b; simpl; intro H; try discriminate; auto.
  - apply q_sb_eq in H. congruence.
  - apply qs_sb_eq in H. congruence.
  - apply String.eqb_eq in H. congruence.
  - apply String.eqb_eq in H. congruence.
  - apply Nat.eqb_eq in H. congruence.
Qed.
Definition opt_sb (a b : option pyv) : bool :=
  match a, b with Some x, Some y => pyv_sb x y | None, None => true | _, _ => false end.
Lemma opt_sb_eq a b : opt_sb a b = true -> a = b.
Proof. destruct a, b; simpl; intro H; try discriminate; auto. apply pyv_sb_eq in H. congruence. Qed.

Fixpoint nodup_b (l : list string) : bool :=
  match l with [] => true | x :: l' => (negb (mem_str x l') && nodup_b l')%bool end.
Lemma nodup_b_ok l : nodup_b l = true -> NoDup l.
Proof.
  induction l as [|x l IH]; simpl; intro H; constructor; apply andb_true_iff in H; destruct H as [H1 H2]; auto.
  apply negb_true_iff, not_true_iff_false in H1. rewrite mem_str_In in H1. auto.
Qed.

(** *** instances *)
Definition some_of (e : sig pyv) : dict pyv :=
  flat_map (fun p => match snd p with Some v => [(fst p, v)] | None => [] end) e.
Definition own_defaults : dict pyv := kw_defaults sde_init.
Definition inspected (p : preset) (ids : list string) : res (expected pyv) :=
  inspect_args (fun _ => true) pyv_eqb (pr_q p) ids (setups p) (pr_init p) (pr_sde p) (pr_more p).
(** all there is to check for the documented parameters [doc] of class [p] *)
Definition doc_ok (p : preset) (doc : dict pyv) (ids : list string) : bool :=
  match inspected p ids with
  | Err _ => false
  | Ok e => (nodup_b (M_args.keys (ex_args e)) && forallb (fun q => match snd q with Some _ => true | None => false end) (ex_args e) &&
             forallb (fun k => negb (mem_str k (M_args.keys own_defaults))) (M_args.keys (ex_args e)) &&
             forallb (fun k => opt_sb (lookup k doc) (lookup k (own_defaults ++ some_of (ex_args e))))
                     (M_args.keys doc ++ M_args.keys (own_defaults ++ some_of (ex_args e))))%bool
  end.

Lemma lookup_app {A} k (d1 d2 : dict A) : lookup k (d1 ++ d2) = match lookup k d1 with Some v => Some v | None => lookup k d2 end.
Proof. induction d1 as [|[k' v] d1 IH]; simpl; auto. destruct (String.eqb k k'); auto. Qed.
Lemma lookup_filter {A} (f : string -> bool) k (d : dict A) :
  lookup k (filter (fun p => f (fst p)) d) = if f k then lookup k d else None.
Proof.
  induction d as [|[k' v] d IH]; simpl; [destruct (f k); auto|].
  destruct (String.eqb_spec k k') as [<-|N].
  - destruct (f k) eqn:E; simpl; [rewrite String.eqb_refl; auto|exact IH].
  - destruct (f k'); simpl; [destruct (String.eqb_spec k k'); [contradiction|]|]; exact IH.
Qed.
Lemma lookup_map_some {A} k (d : dict A) : lookup k (map (fun q => (fst q, Some (snd q))) d) = option_map Some (lookup k d).
Proof. induction d as [|[k' v] d IH]; simpl; auto. destruct (String.eqb k k'); auto. Qed.
Lemma keys_map_some {A} (d : dict A) : M_args.keys (map (fun q => (fst q, Some (snd q))) d) = M_args.keys d.
Proof. unfold M_args.keys. rewrite map_map. reflexivity. Qed.
Lemma lookup_keys {A} k (d : dict A) : lookup k d <> None <-> In k (M_args.keys d).
Proof. rewrite lookup_None. destruct (in_dec string_dec k (M_args.keys d)); tauto. Qed.
Lemma some_of_lookup k e : (forall k' z, In (k', z) e -> z <> None) ->
  lookup k (some_of e) = match lookup k e with Some z => z | None => None end.
Proof.
  induction e as [|[k' z] e IH]; simpl; auto. intro H. destruct z as [v|]; [|exfalso; eapply H; eauto].
  simpl. destruct (String.eqb k k'); auto. apply IH. intros. eapply H; eauto.
Qed.
Lemma mem_str_dec k l : mem_str k l = true \/ mem_str k l = false.
Proof. destruct (mem_str k l); auto. Qed.

Theorem instance_spec (p : preset) (doc : dict pyv) (ids : list string) : doc_ok p doc ids = true ->
  forall kwargs, NoDup (map fst kwargs) ->
  ((exists d, instantiate p ids kwargs = Ok d) <-> forall k, In k (map fst kwargs) -> In k (map fst doc)) /\
  (forall x, instantiate p ids kwargs = Err x -> x = TypeError) /\
  forall d, instantiate p ids kwargs = Ok d -> NoDup (map fst d) /\ forall k, lookup k d = call_value doc kwargs k.
Proof.
  unfold doc_ok. destruct (inspected p ids) as [e|] eqn:EI; [|discriminate]. intro H.
  repeat (apply andb_true_iff in H; destruct H as [H ?]). rename H0 into HD, H1 into HO, H2 into HS, H into HN.
  apply nodup_b_ok in HN. rewrite forallb_forall in HD, HO, HS.
  assert (HS' : forall k' z, In (k', z) (ex_args e) -> z <> None).
  { intros k' z Hz. specialize (HS _ Hz). simpl in HS. destruct z; congruence. }
  set (own := own_defaults) in *. set (ok := M_args.keys own) in *.
  assert (HO' : forall k, In k (M_args.keys (ex_args e)) -> mem_str k ok = false).
  { intros k Hk. specialize (HO k Hk). apply negb_true_iff in HO. exact HO. }
  assert (LD : forall k, lookup k doc = match lookup k own with Some v => Some v
                                        | None => match lookup k (ex_args e) with Some z => z | None => None end end).
  { intro k. rewrite <- some_of_lookup, <- lookup_app by exact HS'.
    destruct (in_dec string_dec k (M_args.keys doc ++ M_args.keys (own ++ some_of (ex_args e)))) as [Hk|Hk].
    - apply opt_sb_eq, HD, Hk.
    - assert (A : ~ In k (M_args.keys doc) /\ ~ In k (M_args.keys (own ++ some_of (ex_args e)))) by (split; intro; apply Hk, in_or_app; auto).
      destruct A as [A1 A2]. apply lookup_None in A1, A2. congruence. }
  clear HD HO. intros kwargs ND.
  set (mine := filter (fun q => mem_str (fst q) ok) kwargs).
  set (rest := filter (fun q => negb (mem_str (fst q) ok)) kwargs).
  set (args := map (fun q => (fst q, Some (snd q))) rest).
  assert (NM : NoDup (M_args.keys mine)) by (apply (filter_nodup (fun q => mem_str (fst q) ok)); exact ND).
  assert (NR : NoDup (M_args.keys rest)) by (apply (filter_nodup (fun q => negb (mem_str (fst q) ok))); exact ND).
  assert (NA : NoDup (M_args.keys args)) by (unfold args; rewrite keys_map_some; exact NR).
  assert (EX : instantiate p ids kwargs = match consolidate (ex_args e) args with
                                         | Ok a => Ok (dupdate own mine ++ a) | Err x => Err x end).
  { transitivity (rbind (rbind (inspected p ids) (fun e => rbind (consolidate (ex_args e) args) (fun a => Ok (e, a))))
                   (fun r => Ok (dupdate own mine ++ snd r))).
    { unfold instantiate, sde_args, inspected. cbv zeta. unfold args, mine, rest, ok, own, own_defaults. reflexivity. }
    rewrite EI. unfold rbind. destruct (consolidate (ex_args e) args); reflexivity. }
  assert (LM : forall k, lookup k mine = if mem_str k ok then lookup k kwargs else None) by (intro k; apply (lookup_filter (fun k => mem_str k ok))).
  assert (LR : forall k, lookup k rest = if mem_str k ok then None else lookup k kwargs).
  { intro k. etransitivity; [apply (lookup_filter (fun k => negb (mem_str k ok)))|]. destruct (mem_str k ok); reflexivity. }
  assert (LO : forall k, mem_str k ok = false <-> lookup k own = None).
  { intro k. rewrite lookup_None. fold ok. rewrite <- mem_str_In. destruct (mem_str k ok); split; congruence. }
  assert (KD : forall k, In k (map fst doc) <-> mem_str k ok = true \/ In k (M_args.keys (ex_args e))).
  { intro k. change (map fst doc) with (M_args.keys doc). rewrite <- lookup_keys, LD.
    destruct (mem_str k ok) eqn:E.
    - split; [tauto|]. intros _. destruct (lookup k own) eqn:EL; [congruence|]. apply LO in EL. congruence.
    - apply LO in E. rewrite E. rewrite <- lookup_keys. destruct (lookup k (ex_args e)) as [[v|]|] eqn:EL.
      + split; [right; congruence|congruence].
      + exfalso. apply lookup_In in EL. eapply HS'; eauto.
      + split; [congruence|]. intros [A|A]; congruence. }
  pose proof (consolidate_spec (ex_args e) args HN NA) as CS.
  assert (KA : forall k, In k (M_args.keys args) <-> mem_str k ok = false /\ In k (map fst kwargs)).
  { intro k. unfold args. rewrite keys_map_some. rewrite <- lookup_keys, LR. change (map fst kwargs) with (M_args.keys kwargs).
    rewrite <- lookup_keys. destruct (mem_str k ok); split; intros; try tauto; destruct H; congruence. }
  split; [|split].
  - rewrite EX. split.
    + intros (d & H). destruct (consolidate (ex_args e) args) as [a|] eqn:EC; [|discriminate].
      destruct (proj1 CS (ex_intro _ a eq_refl)) as [H1 _]. intros k Hk. apply KD.
      destruct (mem_str k ok) eqn:E; auto. right. apply H1, KA. auto.
    + intro H. destruct (proj2 CS) as (a & EC).
      * split.
        -- intros k Hk. apply KA in Hk. destruct Hk as [E Hk]. apply H, KD in Hk. destruct Hk; [congruence|auto].
        -- intros k Hk. destruct (key_lookup _ _ Hk) as (z & EZ). apply lookup_In in EZ. destruct z as [v|]; [|exfalso; eapply HS'; eauto].
           destruct (lookup k args) as [z|] eqn:EA.
           ++ unfold args in EA. rewrite lookup_map_some in EA. destruct (lookup k rest) as [u|] eqn:ER; simpl in EA; [|discriminate].
              exists u. left. unfold args. apply in_map_iff. exists (k, u). split; auto. apply lookup_In; auto.
           ++ exists v. right. split; auto. apply lookup_None; auto.
      * rewrite EC. eauto.
  - intros x H. rewrite EX in H. destruct (consolidate (ex_args e) args) eqn:EC; [discriminate|]. injection H as <-.
    eapply consolidate_err; eauto.
  - intros d H. rewrite EX in H. destruct (consolidate (ex_args e) args) as [a|] eqn:EC; [|discriminate]. injection H as <-.
    destruct (consolidate_inv (ex_args e) args a HN NA EC) as (Na & Ka & Ia).
    assert (NO : NoDup (M_args.keys own)).
    { apply nodup_b_ok. vm_compute. reflexivity. }
    assert (KO : forall k, In k (M_args.keys (dupdate own mine)) <-> mem_str k ok = true).
    { intro k. rewrite keys_dupdate. fold ok. rewrite (mem_str_In k ok). split; [|intro; right; assumption]. intros [Hk|Hk]; auto. rewrite <- mem_str_In.
      apply lookup_keys in Hk. rewrite LM in Hk. destruct (mem_str k ok); congruence. }
    split.
    + rewrite map_app. apply NoDup_app2. 
      * apply dupdate_nodup; auto.
      * exact Na.
      * intros k Hk Hk2. apply KO in Hk. apply Ka in Hk2. apply HO' in Hk2. congruence.
    + intro k. rewrite lookup_app, lookup_dupdate by exact NM. unfold call_value. rewrite LD, LM.
      destruct (mem_str k ok) eqn:E.
      * destruct (lookup k own) as [v|] eqn:EL; [|apply LO in EL; congruence].
        destruct (lookup k kwargs); reflexivity.
      * apply LO in E as EO. rewrite EO. destruct (lookup k (ex_args e)) as [[v|]|] eqn:EE.
        -- destruct (lookup k kwargs) as [u|] eqn:EK; apply In_lookup; auto; apply Ia.
           ++ left. unfold args. apply in_map_iff. exists (k, u). split; auto. apply lookup_In. rewrite LR, E. exact EK.
           ++ right. split; [|apply lookup_In; auto]. intro Hk. apply KA in Hk. destruct Hk as [_ Hk].
              apply lookup_None in EK. apply EK, Hk.
        -- exfalso. apply lookup_In in EE. eapply HS'; eauto.
        -- apply lookup_None. intro Hk. apply Ka in Hk. apply lookup_None in EE. contradiction.
Qed.
