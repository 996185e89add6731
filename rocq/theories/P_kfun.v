(** Properties of kfunc: C50 - C52. *)
From Coq Require Import String List Arith Bool ZArith Lia.
From Verif Require Import Base M_sde M_args S_args L_args M_kfun S_kfun L_kfun.
Import ListNotations.

Section C50.
Context {V W S : Type}.
Variable c : kcls V W S.

(** an instance made by a chain of overrides: evaluation is that of the wrapped class
    with the merged parameters (w1 is the world as it was when the last instance was made) *)
Theorem C50_chain w h ds w' h' id : made c w h ds w' h' id -> Forall (fun d => NoDup (map fst d)) ds ->
  exists p w1, NoDup (map fst p) /\ (forall k, lookup k p = overrides ds k) /\ no_vars c p /\
    forall vars kw, only_vars c kw ->
      let '(w2, _, r) := kf_call c w' h' id vars kw in
      exists r', raw c w1 p vars kw = (w2, r') /\ r = rmap OVal r'.
Proof.
  intros M ND. destruct (made_spec c w h ds w' h' id M ND) as (o & w1 & EO & NO & HL & NV & EI).
  exists (o_params o), w1. split; auto. split; auto. split; auto. intros vars kw OV.
  unfold kf_call. rewrite EO. destruct (call_all c kw OV) as [-> ->]. simpl nonempty. cbv iota.
  unfold raw. rewrite EI. destruct (kc_call c w' (o_state o) vars kw) as [w2 [s' r]]. eauto.
Qed.
(** evaluating with further overrides at once *)
Theorem C50_chain_override w h ds w' h' id vars kw :
  made c w h ds w' h' id -> Forall (fun d => NoDup (map fst d)) ds -> NoDup (map fst kw) ->
  (exists k, In k (map fst kw) /\ ~ is_var c k) -> (vars <> [] \/ exists k, In k (map fst kw) /\ is_var c k) ->
  exists p, (forall k, ~ is_var c k -> lookup k p = overrides (ds ++ [kw]) k) /\ no_vars c p /\
    let '(w2, _, r) := kf_call c w' h' id vars kw in
    exists r', raw c w' p vars (filter (fun q => is_call c (fst q)) kw) = (w2, r') /\ r = rmap OVal r'.
Proof.
  intros M ND NK (k0 & Hk0 & NV0) HV. destruct (made_spec c w h ds w' h' id M ND) as (o & w1 & EO & NO & HL & NV & EI).
  assert (NI : NoDup (M_args.keys (init_args c kw))) by (apply filter_nodup; auto).
  exists (dupdate (o_params o) (init_args c kw)). split; [|split].
  - intros k NVk. rewrite lookup_dupdate by auto. etransitivity; [|symmetry; apply (overrides_app ds kw k)]. rewrite HL.
    assert (EL : lookup k (init_args c kw) = lookup k kw).
    { destruct (lookup k kw) as [v|] eqn:E.
      - apply In_lookup; auto. apply filter_In. split; [apply lookup_In; auto|]. simpl. apply negb_true_iff, not_true_iff_false.
        rewrite is_call_iff. auto.
      - apply lookup_None. apply lookup_None in E. intro Hk. apply E. apply in_map_iff in Hk.
        destruct Hk as ([k' a] & <- & HI). apply filter_In in HI. eapply In_key. apply HI. }
    rewrite EL. reflexivity.
  - intros k Hk. change (In k (M_args.keys (dupdate (o_params o) (init_args c kw)))) in Hk. apply keys_dupdate in Hk.
    destruct Hk as [Hk|Hk]; [apply (split_init_keys c kw); auto|apply NV; auto].
  - unfold kf_call. rewrite EO.
    assert (NE : nonempty (init_args c kw) = true).
    { apply in_map_iff in Hk0. destruct Hk0 as ([k' a] & <- & HI).
      assert (HF : In (k', a) (init_args c kw)).
      { apply filter_In. split; auto. simpl. apply negb_true_iff, not_true_iff_false. rewrite is_call_iff. auto. }
      destruct (init_args c kw); [destruct HF|reflexivity]. }
    rewrite NE. apply (make_raw c w' h' _ (Some id) vars (call_args c kw)).
    apply orb_true_iff. destruct HV as [HV|(k & Hk & VK)].
    + left. destruct vars; [congruence|reflexivity].
    + right. apply in_map_iff in Hk. destruct Hk as ([k' a] & <- & HI).
      assert (HF : In (k', a) (call_args c kw)) by (apply filter_In; split; auto; apply is_call_iff; auto).
      destruct (call_args c kw); [destruct HF|reflexivity].
Qed.

(** instantiating and evaluating at once is the same as instantiating, then evaluating *)
Theorem C50_at_once w h vars a kw : no_vars c a -> only_vars c kw -> (vars <> [] \/ kw <> []) ->
  match kf_new c w h [] a with
  | (w1, h1, Ok (OObj id)) => kf_new c w h vars (a ++ kw) = kf_call c w1 h1 id vars kw
  | (w1, h1, Err e) => kf_new c w h vars (a ++ kw) = (w1, h1, Err e)
  | _ => False
  end.
Proof.
  intros NA OV NE.
  assert (E1 : init_args c (a ++ kw) = a /\ call_args c (a ++ kw) = kw).
  { destruct (init_all c a NA) as [H1 H2], (call_all c kw OV) as [H3 H4]. unfold init_args, call_args in *.
    rewrite !filter_app, H1, H2, H3, H4, app_nil_r. auto. }
  destruct E1 as [E1 E2]. unfold kf_new. rewrite E1, E2. destruct (init_all c a NA) as [-> ->].
  destruct (call_all c kw OV) as [E3 E4].
  assert (N : nonempty vars || nonempty kw = true).
  { destruct vars, kw; simpl; auto. destruct NE; congruence. }
  unfold make. destruct (kc_init c w a) as [w1 [s|e]] eqn:EI; [|reflexivity]. simpl nonempty. rewrite N. simpl orb. cbv iota beta.
  unfold kf_call. rewrite nth_error_app2, Nat.sub_diag by lia. simpl nth_error. cbv iota. rewrite E3, E4. simpl nonempty. cbv iota.
  destruct (kc_call c w1 s vars kw) as [w2 [s' r]] eqn:EC. simpl o_state. rewrite EC. rewrite upd_last_app. reflexivity.
Qed.
End C50.

(** for functions, nothing else happens: any chain gives an instance, and evaluating it is f of the
    variables and of the merged parameters *)
Section C50f.
Context {V W : Type}.
Variables (spec : kspec V) (f : W -> list V -> dict V -> W * res V).
Notation c := (fun_cls spec f).
Theorem C50_function_made w h a ds : no_vars c a -> Forall (fun d => d <> [] /\ no_vars c d) ds ->
  exists h' id, made c w h (a :: ds) w h' id.
Proof.
  intros NA. induction ds as [|d ds IH] using rev_ind; intro F.
  - exists (h ++ [mkObj a None a]), (length h). apply made_new. unfold kf_new. destruct (init_all c a NA) as [-> ->]. reflexivity.
  - apply Forall_app in F. destruct F as [F FD]. inversion FD as [|? ? [ND NV] _]; subst.
    destruct (IH F) as (h1 & id1 & M). 
    assert (exists o, nth_error h1 id1 = Some o) as (o & EO).
    { clear -M. remember (a :: ds) as l. clear Heql. inversion M as [a0 w' h' id E|ds0 b w1 h0 id0 w2 h2 id2 M' E]; subst.
      - apply make_obj in E. destruct E as (_ & _ & -> & s & _ & ->).
        rewrite nth_error_app2, Nat.sub_diag by lia. simpl. eauto.
      - unfold kf_call in E. destruct (nth_error h0 id0); [|discriminate]. destruct (nonempty (init_args c b)).
        + apply make_obj in E. destruct E as (_ & _ & -> & s & _ & ->).
          rewrite nth_error_app2, Nat.sub_diag by lia. simpl. eauto.
        + destruct (kc_call c w1 _ _ _) as [? [? [|]]]; discriminate. }
    change (a :: ds ++ [d]) with ((a :: ds) ++ [d]).
    destruct (kf_call c w h1 id1 [] d) as [[w2 h2] r] eqn:EK.
    unfold kf_call in EK. rewrite EO in EK. destruct (init_all c d NV) as [E1 E2]. rewrite E1, E2 in EK.
    destruct d as [|p d]; [congruence|]. simpl nonempty in EK. cbv iota in EK. unfold make in EK. simpl in EK.
    injection EK as <- <- <-. eexists. exists (length h1). eapply made_call; [exact M|].
    unfold kf_call. rewrite EO, E1, E2. reflexivity.
Qed.
Theorem C50_function_chain w h ds w' h' id : made c w h ds w' h' id -> Forall (fun d => NoDup (map fst d)) ds ->
  w' = w /\
  exists p, NoDup (map fst p) /\ (forall k, lookup k p = overrides ds k) /\ no_vars c p /\
    forall w2 vars kw, only_vars c kw ->
      kf_call c w2 h' id vars kw = (fst (f w2 vars (kw ++ p)), h', rmap OVal (snd (f w2 vars (kw ++ p)))).
Proof.
  intros M ND. split.
  { clear ND. induction M as [a w' h' id E|ds b w1 h1 id1 w2 h2 id2 M IH E].
    - apply make_obj in E. destruct E as (_ & _ & _ & s & E & _). simpl in E. congruence.
    - subst w1. unfold kf_call in E. destruct (nth_error h1 id1); [|discriminate]. destruct (nonempty (init_args c b)).
      + apply make_obj in E. destruct E as (_ & _ & _ & s & E & _). simpl in E. congruence.
      + destruct (kc_call c w _ _ _) as [? [? [|]]]; discriminate. }
  destruct (made_spec c w h ds w' h' id M ND) as (o & w1 & EO & NO & HL & NV & EI).
  exists (o_params o). split; auto. split; auto. split; auto. intros w2 vars kw OV.
  unfold kf_call. rewrite EO. destruct (call_all c kw OV) as [-> ->]. simpl nonempty. cbv iota.
  simpl in EI. injection EI as _ ES. rewrite <- ES.
  simpl kc_call. assert (EX : existsb (fun k => mem_str k (M_args.keys (o_params o))) (M_args.keys kw) = false).
  { apply existsb_disj. intros k H1 H2. apply (NV k H2), OV, H1. }
  rewrite EX. destruct (f w2 vars (kw ++ o_params o)) as [w3 r]. simpl. f_equal. f_equal.
  destruct o as [p q s]. simpl in *. subst s. clear -EO. revert id EO.
  induction h' as [|x h' IH]; intros [|id] EO; simpl in *; try discriminate; [congruence|]. f_equal. apply IH; auto.
Qed.
End C50f.
Print Assumptions C50_chain.
Print Assumptions C50_chain_override.
Print Assumptions C50_at_once.
Print Assumptions C50_function_made.
Print Assumptions C50_function_chain.

(** *** C51 *)
Section C51.
Context {V W S : Type}.
Variable c : kcls V W S.
(** any sequence of calls, of any kind and on any instance, leaves the parameters of instances unchanged *)
Theorem C51_params_kept l w h id o : nth_error h id = Some o ->
  exists o', nth_error (snd (run_ops c w h l)) id = Some o' /\ o_params o' = o_params o /\ o_parent o' = o_parent o.
Proof. apply run_ops_keeps. Qed.
(** a call with overrides leaves all instances unchanged *)
Theorem C51_override_keeps w h id1 vars kw id o : nth_error h id = Some o ->
  (exists k, In k (map fst kw) /\ ~ is_var c k) ->
  nth_error (snd (fst (kf_call c w h id1 vars kw))) id = Some o.
Proof.
  intros E (k & Hk & NV). destruct (kf_call_heap c w h id1 vars kw) as [(ext & ->)|(EI & _)].
  - rewrite nth_error_app1; auto. apply nth_error_Some; congruence.
  - exfalso. apply in_map_iff in Hk. destruct Hk as ([k' a] & <- & HI).
    assert (HF : In (k', a) (init_args c kw)).
    { apply filter_In. split; auto. simpl. apply negb_true_iff, not_true_iff_false. rewrite is_call_iff. auto. }
    rewrite EI in HF. destruct HF.
Qed.
(** if evaluation does not change the state of the instance, evaluating again, after any sequence of calls, gives the same *)
Theorem C51_same_result l w h id o w1 vars kw : stateless c -> nth_error h id = Some o -> only_vars c kw ->
  let h' := snd (run_ops c w h l) in
  fst (fst (kf_call c w1 h' id vars kw)) = fst (fst (kf_call c w1 h id vars kw)) /\
  snd (kf_call c w1 h' id vars kw) = snd (kf_call c w1 h id vars kw).
Proof.
  intros PU E OV h'. pose proof (run_ops_same c l PU w h id o E) as E'. fold h' in E'.
  unfold kf_call. rewrite E, E'. destruct (call_all c kw OV) as [-> ->]. simpl nonempty. cbv iota.
  destruct (kc_call c w1 (o_state o) vars kw) as [? [? ?]]. auto.
Qed.
End C51.
(** it does not for functions *)
Theorem C51_functions {V W} (spec : kspec V) (f : W -> list V -> dict V -> W * res V) : stateless (fun_cls spec f).
Proof.
  intros w s vars kw. simpl. destruct (existsb _ _); [reflexivity|]. destruct (f w vars (kw ++ s)). reflexivity.
Qed.
Print Assumptions C51_params_kept.
Print Assumptions C51_override_keeps.
Print Assumptions C51_same_result.
Print Assumptions C51_functions.

(** *** C52 *)
Section C52.
Context {V : Type}.

Lemma filter_proper (s0 : sparam V) l : proper s0 -> List.tl (filter not_varkw (s0 :: l)) = filter not_varkw l.
Proof.
  intro H. simpl. unfold not_varkw at 1. destruct (kind_eqb (p_kind s0) VarKw) eqn:E; auto.
  apply kind_eqb_eq in E. contradiction.
Qed.
Lemma filter_proper_In (p : sparam V) l : In p (filter not_varkw l) <-> In p l /\ proper p.
Proof.
  rewrite filter_In. unfold not_varkw, proper. rewrite negb_true_iff, <- not_true_iff_false, kind_eqb_eq. tauto.
Qed.

(** classes: refused exactly when ... *)
Theorem C52_class (k : klass V) s0 s1 ips cps : init_sig k = s0 :: ips -> call_sig k = s1 :: cps -> proper s0 -> proper s1 ->
  (exists spec, wrap_class k = Ok spec) <->
  ((cls_kfunc k = true \/ (cls_new k = false /\ cls_init k = true /\ cls_call k = true)) /\
   (forall p, In p ips -> proper p -> p_kind p = KwOnly) /\
   (forall p q, In p ips -> In q cps -> proper p -> proper q -> p_name p <> p_name q)).
Proof.
  intros EI EC P0 P1. unfold wrap_class. rewrite EI, EC, !filter_proper by auto.
  destruct (existsb (fun p => negb (kind_eqb (p_kind p) KwOnly)) (filter not_varkw ips)) eqn:EK.
  - split.
    + intros (spec & H). destruct (negb (cls_kfunc k) && cls_new k), (negb (cls_kfunc k) && negb (cls_init k && cls_call k)); discriminate.
    + intros (_ & H & _). apply existsb_exists in EK. destruct EK as (p & Hp & E). apply filter_proper_In in Hp.
      rewrite negb_true_iff, <- not_true_iff_false, kind_eqb_eq in E. exfalso. apply E, H; tauto.
  - assert (HK : forall p, In p ips -> proper p -> p_kind p = KwOnly).
    { intros p Hp PP. destruct (kind_eqb (p_kind p) KwOnly) eqn:E; [apply kind_eqb_eq; auto|].
      exfalso. apply not_true_iff_false in EK. apply EK, existsb_exists. exists p. rewrite E. split; auto. apply filter_proper_In; auto. }
    set (names := map p_name (filter not_varkw cps)).
    assert (HD : existsb (fun n => mem_str n names) (M_args.keys (map named (filter not_varkw ips))) = false <->
                 (forall p q, In p ips -> In q cps -> proper p -> proper q -> p_name p <> p_name q)).
    { rewrite existsb_disj. unfold names, M_args.keys. rewrite map_map. simpl. split.
      - intros H p q Hp Hq Pp Pq E. apply (H (p_name p)).
        + apply in_map_iff. exists p. split; auto. apply filter_proper_In; auto.
        + rewrite E. apply in_map_iff. exists q. split; auto. apply filter_proper_In; auto.
      - intros H n Hn Hm. apply in_map_iff in Hn, Hm. destruct Hn as (p & <- & Hp), Hm as (q & E & Hq).
        apply filter_proper_In in Hp, Hq. apply (H p q); try tauto. auto. }
    destruct (existsb (fun n => mem_str n names) _) eqn:EN.
    + split; [|intros (_ & _ & H); apply HD in H; discriminate].
      intros (spec & H). destruct (negb (cls_kfunc k) && cls_new k), (negb (cls_kfunc k) && negb (cls_init k && cls_call k)); discriminate.
    + destruct (cls_kfunc k), (cls_new k), (cls_init k), (cls_call k); simpl; (split; [
        intros (spec & H); first [discriminate | (split; [tauto|]; split; [auto|]; apply HD; auto)]
       |intros ([H|(H & H' & H'')] & _); try discriminate; eauto]).
Qed.
Theorem C52_class_error (k : klass V) x : wrap_class k = Err x -> x = TypeError.
Proof.
  unfold wrap_class. destruct (_ && _); [congruence|]. destruct (_ && _); [congruence|].
  destruct (existsb _ _); [congruence|]. destruct (existsb _ _); congruence.
Qed.
(** and then the parameters are those of __init__, the variables those of __call__ *)
Theorem C52_class_spec (k : klass V) s0 s1 ips cps spec : init_sig k = s0 :: ips -> call_sig k = s1 :: cps -> proper s0 -> proper s1 ->
  wrap_class k = Ok spec ->
  (forall n d, In (n, d) (ks_init spec) <-> exists p, In p ips /\ proper p /\ p_name p = n /\ p_default p = d) /\
  (forall n, In n (ks_call spec) <-> exists p, In p cps /\ proper p /\ p_name p = n) /\
  forall n, In n (map fst (ks_init spec)) -> ~ In n (ks_call spec).
Proof.
  intros EI EC P0 P1. unfold wrap_class. rewrite EI, EC, !filter_proper by auto.
  destruct (_ && _); [discriminate|]. destruct (_ && _); [discriminate|].
  destruct (existsb _ _); [discriminate|]. destruct (existsb _ _) eqn:EN; [discriminate|].
  intro H. injection H as <-. simpl. split; [|split].
  - intros n d. rewrite in_map_iff. split.
    + intros (p & E & Hp). apply filter_proper_In in Hp. injection E as <- <-. exists p. tauto.
    + intros (p & H1 & H2 & <- & <-). exists p. split; auto. apply filter_proper_In; auto.
  - intros n. rewrite in_map_iff. split.
    + intros (p & <- & Hp). apply filter_proper_In in Hp. exists p. tauto.
    + intros (p & H1 & H2 & <-). exists p. split; auto. apply filter_proper_In; auto.
  - apply existsb_disj. exact EN.
Qed.

(** functions; [fs] are all the parameters but possibly a last one collecting keywords *)
Theorem C52_function nvar (fs kws : list (sparam V)) : Forall proper fs -> Forall (fun p => ~ proper p) kws ->
  wrap_function false nvar (fs ++ kws) =
    (if ((0 <? nvar) && (nvar <=? Z.of_nat (length fs)))%Z then
       if existsb (fun p => negb (kind_eqb (p_kind p) KwOnly)) (skipn (Z.to_nat nvar) fs) then Err TypeError
       else Ok (mkSpec (map named (skipn (Z.to_nat nvar) fs)) (map p_name (firstn (Z.to_nat nvar) fs)))
     else Err ValueError) /\
  ((exists spec, wrap_function false nvar (fs ++ kws) = Ok spec) <->
   (0 < nvar <= Z.of_nat (length fs))%Z /\ forall i p, nth_error fs i = Some p -> (nvar <= Z.of_nat i)%Z -> p_kind p = KwOnly).
Proof.
  intros PF PK. assert (EF : filter not_varkw (fs ++ kws) = fs).
  { rewrite filter_app. assert (E1 : filter not_varkw fs = fs).
    { induction PF as [|p fs Pp PF IH]; auto. simpl. rewrite IH. unfold not_varkw.
      destruct (kind_eqb (p_kind p) VarKw) eqn:E; auto. apply kind_eqb_eq in E. contradiction. }
    assert (E2 : filter not_varkw kws = []).
    { clear -PK. induction PK as [|p kws Pp PK IH]; auto. simpl. rewrite IH. unfold not_varkw, proper in *.
      destruct (kind_eqb (p_kind p) VarKw) eqn:E; auto. exfalso. apply Pp. intro H. apply kind_eqb_eq in H. congruence. }
    rewrite E1, E2, app_nil_r. reflexivity. }
  assert (EW : wrap_function false nvar (fs ++ kws) =
    (if ((0 <? nvar) && (nvar <=? Z.of_nat (length fs)))%Z then
       if existsb (fun p => negb (kind_eqb (p_kind p) KwOnly)) (skipn (Z.to_nat nvar) fs) then Err TypeError
       else Ok (mkSpec (map named (skipn (Z.to_nat nvar) fs)) (map p_name (firstn (Z.to_nat nvar) fs)))
     else Err ValueError)).
  { unfold wrap_function. rewrite EF. destruct (_ && _)%bool; [|reflexivity]. simpl negb. cbv iota.
    destruct (existsb _ _); [reflexivity|]. unfold wrap_class. simpl. reflexivity. }
  split; [exact EW|]. rewrite EW.
  destruct ((0 <? nvar) && (nvar <=? Z.of_nat (length fs)))%Z eqn:ER.
  2:{ split; [intros (s & H); discriminate|]. intros [H _]. exfalso.
      apply andb_false_iff in ER. rewrite Z.ltb_ge, Z.leb_gt in ER. lia. }
  apply andb_true_iff in ER. rewrite Z.ltb_lt, Z.leb_le in ER.
  assert (NS : forall i p, nth_error (skipn (Z.to_nat nvar) fs) i = Some p -> nth_error fs (Z.to_nat nvar + i) = Some p).
  { generalize (Z.to_nat nvar) as n. clear. intro n. revert fs. induction n as [|n IH]; intros fs i p H; auto.
    destruct fs; simpl in *; [destruct i; discriminate|]. apply IH; auto. }
  assert (SN : forall n i p, nth_error fs (n + i) = Some p -> nth_error (skipn n fs) i = Some p).
  { clear. intro n. revert fs. induction n as [|n IH]; intros fs i p H; auto.
    destruct fs; simpl in *; [discriminate|]. apply IH; auto. }
  destruct (existsb _ _) eqn:EK.
  - split; [intros (s & H); discriminate|]. intros [_ H]. exfalso. apply existsb_exists in EK. destruct EK as (p & Hp & E).
    apply In_nth_error in Hp. destruct Hp as (i & Hi). apply NS in Hi.
    rewrite negb_true_iff, <- not_true_iff_false, kind_eqb_eq in E. apply E. apply (H _ _ Hi). lia.
  - split; [intros _|eauto]. split; [lia|]. intros i p Hi Hn.
    destruct (kind_eqb (p_kind p) KwOnly) eqn:E; [apply kind_eqb_eq; auto|].
    exfalso. apply not_true_iff_false in EK. apply EK, existsb_exists. exists p. rewrite E. split; auto.
    replace i with (Z.to_nat nvar + (i - Z.to_nat nvar)) in Hi by lia. apply SN in Hi. eapply nth_error_In; eauto.
Qed.
(** the decorator: kfunc(class) or kfunc(nvar=n)(function) only *)
Theorem C52_decorator (f : option (callable V)) nvar :
  (exists g, kfunc f nvar = Ok g) <-> ((exists k, f = Some (CClass k)) /\ nvar = None) \/ (f = None /\ nvar <> None).
Proof.
  destruct f as [[k|s]|], nvar as [n|]; simpl; (split; [intros (g & H)|]); try discriminate; eauto.
  - intros [[_ H]|[H _]]; discriminate.
  - intros [[(k & H) _]|[H _]]; discriminate.
  - intros [[(k & H) _]|[H _]]; discriminate.
  - right. split; auto. discriminate.
  - intros [[(k & H) _]|[_ H]]; [discriminate|congruence].
Qed.
Theorem C52_decorator_error (f : option (callable V)) nvar x : kfunc f nvar = Err x -> x = SyntaxError.
Proof. destruct f as [[k|s]|], nvar as [n|]; simpl; congruence. Qed.

Context {W S : Type}.
Variable c : kcls V W S.
(** routing: every keyword is either a variable or a parameter *)
Theorem C52_routing (kw : dict V) k v :
  (In (k, v) (call_args c kw) <-> In (k, v) kw /\ is_var c k) /\
  (In (k, v) (init_args c kw) <-> In (k, v) kw /\ ~ is_var c k) /\
  (In (k, v) kw <-> In (k, v) (call_args c kw) \/ In (k, v) (init_args c kw)) /\
  ~ (In (k, v) (call_args c kw) /\ In (k, v) (init_args c kw)).
Proof.
  assert (H1 : In (k, v) (call_args c kw) <-> In (k, v) kw /\ is_var c k).
  { unfold call_args. rewrite filter_In. simpl. rewrite is_call_iff. tauto. }
  assert (H2 : In (k, v) (init_args c kw) <-> In (k, v) kw /\ ~ is_var c k).
  { unfold init_args. rewrite filter_In. simpl. rewrite negb_true_iff, <- not_true_iff_false, is_call_iff. tauto. }
  assert (DEC : is_var c k \/ ~ is_var c k).
  { destruct (is_call c k) eqn:E; [left; apply is_call_iff; auto|right; rewrite <- is_call_iff; congruence]. }
  tauto.
Qed.
(** params: all parameters in the signature or given, with the last value given, else with the default *)
Theorem C52_params w h ds w' h' id (sde : dict V) : made c w h ds w' h' id -> Forall (fun d => NoDup (map fst d)) ds ->
  NoDup (map fst sde) ->
  exists o, nth_error h' id = Some o /\
    forall k, lookup k (params c o sde) =
      match lookup k sde, overrides ds k with
      | Some v, _ => Some (Some v)
      | None, Some v => Some (Some v)
      | None, None => lookup k (ks_init (kc_spec c))
      end.
Proof.
  intros M ND NS. destruct (made_spec c w h ds w' h' id M ND) as (o & w1 & EO & NO & HL & NV & EI).
  exists o. split; auto. intro k. unfold params.
  assert (LM : forall d : dict V, lookup k (map (fun p => (fst p, Some (snd p))) d) = option_map Some (lookup k d)).
  { induction d as [|[k' v] d IH]; simpl; auto. destruct (String.eqb k k'); auto. }
  assert (NM : forall d : dict V, NoDup (map fst d) -> NoDup (M_args.keys (map (fun p => (fst p, Some (snd p))) d))).
  { intros d H. unfold M_args.keys. rewrite map_map. simpl. exact H. }
  rewrite !lookup_dupdate by auto. rewrite !LM, HL. destruct (lookup k sde); simpl; auto.
  destruct (overrides ds k); auto.
Qed.
End C52.
Print Assumptions C52_class.
Print Assumptions C52_class_error.
Print Assumptions C52_class_spec.
Print Assumptions C52_function.
Print Assumptions C52_decorator.
Print Assumptions C52_decorator_error.
Print Assumptions C52_routing.
Print Assumptions C52_params.

(** *** Examples: def f(x, y, *, a=1, b): return 1000*x + 100*y + 10*a + b, with nvar=2 *)
Section Ex.
Open Scope string_scope.
Open Scope Z_scope.
Definition ex_sig : list (sparam Z) :=
  [mkP "x" PosOrKw None; mkP "y" PosOrKw None; mkP "a" KwOnly (Some 1); mkP "b" KwOnly None].
Definition ex_spec : kspec Z := mkSpec [("a", Some 1); ("b", None)] ["x"; "y"].
Example C52_ex_wrap : wrap_function false 2 ex_sig = Ok ex_spec.
Proof. vm_compute. reflexivity. Qed.
Example C52_ex_few : wrap_function false 1 ex_sig = Err TypeError.
Proof. vm_compute. reflexivity. Qed.
Example C52_ex_range : wrap_function false 5 ex_sig = Err ValueError.
Proof. vm_compute. reflexivity. Qed.
Example C52_ex_clash : wrap_class (mkKlass false false true true
   [self_p; mkP "a" KwOnly (Some 1)] [self_p; mkP "x" PosOrKw None; mkP "a" PosOrKw (Some 1)]) = Err TypeError.
Proof. vm_compute. reflexivity. Qed.
(** the world counts evaluations *)
Definition ex_f (w : nat) (vars : list Z) (kw : dict Z) : nat * res Z :=
  match (vars ++ flat_map (fun k => match lookup k kw with Some v => [v] | None => [] end) ["x"; "y"])%list with
  | [x; y] => match lookup "b" kw with
              | Some b => (S w, Ok (1000*x + 100*y + 10*(match lookup "a" kw with Some a => a | None => 1 end) + b))
              | None => (w, Err TypeError)
              end
  | _ => (w, Err TypeError)
  end.
Definition ex_c := fun_cls ex_spec ex_f.
(** f(b=5)(a=2)(b=7) evaluated at (3, y=4) *)
Example C50_ex_chain :
  let '(w1, h1, r1) := kf_new ex_c 0%nat [] [] [("b", 5)] in
  let '(w2, h2, r2) := kf_call ex_c w1 h1 0 [] [("a", 2)] in
  let '(w3, h3, r3) := kf_call ex_c w2 h2 1 [] [("b", 7)] in
  r3 = Ok (OObj 2%nat) /\ kf_call ex_c w3 h3 2 [3] [("y", 4)] = (1%nat, h3, Ok (OVal 3427)) /\
  snd (kf_call ex_c w3 h3 0 [3] [("y", 4)]) = Ok (OVal 3415).
Proof. vm_compute. auto. Qed.
Example C50_ex_at_once : snd (kf_new ex_c 0%nat [] [3; 4] [("b", 7); ("a", 2)]) = Ok (OVal 3427).
Proof. vm_compute. reflexivity. Qed.
(** an override with an empty dictionary is an evaluation *)
Example C50_ex_empty : let '(w1, h1, r1) := kf_new ex_c 0%nat [] [] [("b", 5)] in
  snd (kf_call ex_c w1 h1 0 [] []) = Err TypeError.
Proof. vm_compute. reflexivity. Qed.
(** a class whose instances count their evaluations: state changes, parameters do not *)
Definition cnt_c : kcls Z nat nat := mkCls (mkSpec [("a", Some 1)] ["x"])
  (fun w _ => (w, Ok 0%nat)) (fun w s vars kw => (w, (S s, Ok (Z.of_nat s)))).
Example C51_ex : let '(w1, h1, r1) := kf_new cnt_c 0%nat [] [] [("a", 3)] in
  let h2 := snd (run_ops cnt_c w1 h1 [Call 0 [1] []; Call 0 [1] [("a", 4)]; Call 0 [] []]) in
  nth_error h2 0 = Some (mkObj [("a", 3)] None 2%nat).
Proof. vm_compute. reflexivity. Qed.
End Ex.
