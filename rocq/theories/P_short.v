(** Properties of shortcuts and of the documented parameters of processes: C77. *)
From Coq Require Import String List Arith Bool ZArith QArith Permutation Lia.
From Verif Require Import Base M_sde M_args L_args M_kfun S_kfun L_kfun M_short S_short L_short.
Import ListNotations.
Open Scope string_scope.
Open Scope list_scope.

Lemma settings s : s = PText "all" \/ s = PText "shortcuts" \/ s = PNone \/ shortcuts s = Err ValueError.
Proof.
  unfold shortcuts, wrappers. destruct s as [|q|l|t|t|n]; try (right; right; right; reflexivity); [right; right; left; reflexivity|].
  destruct (String.eqb_spec t "all") as [->|N1]; [left; reflexivity|].
  destruct (String.eqb_spec t "shortcuts") as [->|N2]; [right; left; reflexivity|right; right; right; reflexivity].
Qed.
Definition env_all := Eval vm_compute in match shortcuts (PText "all") with Ok e => e | Err _ => [] end.
Definition env_short := Eval vm_compute in match shortcuts (PText "shortcuts") with Ok e => e | Err _ => [] end.
Definition env_none := Eval vm_compute in match shortcuts PNone with Ok e => e | Err _ => [] end.
Lemma is_all : shortcuts (PText "all") = Ok env_all.
Proof. vm_compute. reflexivity. Qed.
Lemma is_short : shortcuts (PText "shortcuts") = Ok env_short.
Proof. vm_compute. reflexivity. Qed.
Lemma is_none : shortcuts PNone = Ok env_none.
Proof. vm_compute. reflexivity. Qed.
Local Opaque shortcuts env_all env_short env_none.
(** the three settings of KFUNC, and no other *)
Theorem C77_setting (s : pyv) :
  ((exists env, shortcuts s = Ok env) <-> s = PText "all" \/ s = PText "shortcuts" \/ s = PNone) /\
  (forall x, shortcuts s = Err x -> x = ValueError).
Proof.
  split.
  - split.
    + intros (env & H). destruct (settings s) as [E|[E|[E|E]]]; [tauto|tauto|tauto|]. rewrite E in H. discriminate.
    + intros [->|[->| ->]]; [exists env_all; apply is_all|exists env_short; apply is_short|exists env_none; apply is_none].
  - intros x H. destruct (settings s) as [E|[E|[E|E]]]; [| | |rewrite E in H; injection H as <-; reflexivity]; subst s.
    + rewrite is_all in H. discriminate.
    + rewrite is_short in H. discriminate.
    + rewrite is_none in H. discriminate.
Qed.
(** the environments *)
Lemma cases s env : shortcuts s = Ok env ->
  (s = PText "all" /\ env = env_all) \/ (s = PText "shortcuts" /\ env = env_short) \/ (s = PNone /\ env = env_none).
Proof.
  intro H. destruct (settings s) as [->|[->|[->|E]]].
  - rewrite is_all in H. injection H as <-. left; split; reflexivity.
  - rewrite is_short in H. injection H as <-. right; left; split; reflexivity.
  - rewrite is_none in H. injection H as <-. right; right; split; reflexivity.
  - rewrite E in H. discriminate.
Qed.

(** the variables of a kfunc made of a class are those of __call__, its parameters those of __init__, with
    their defaults *)
Definition class_spec (k : klass pyv) : kspec pyv :=
  mkSpec (map named (filter not_varkw (List.tl (init_sig k)))) (map p_name (List.tl (call_sig k))).
Definition shortcut_ok (s : pyv) (env : dict pyobj) (p : string * string) : Prop :=
  exists k, lookup (fst p) imported = Some (OClass (fst p) k) /\
    let kf := OKfunc (class_spec k) (OClass (fst p) k) in
    lookup (fst p) env = Some (if pyv_eqb s (PText "all") then kf else OClass (fst p) k) /\
    lookup (snd p) env = Some (if pyv_eqb s PNone then OClass (fst p) k else kf).
Lemma shortcuts_ok s env : shortcuts s = Ok env -> Forall (shortcut_ok s env) doc_shortcuts.
Proof.
  intro H. destruct (cases s env H) as [[-> ->]|[[-> ->]|[-> ->]]];
    unfold doc_shortcuts; repeat (apply Forall_cons; [eexists; split; [vm_compute; reflexivity|split; vm_compute; reflexivity]|]);
    apply Forall_nil.
Qed.
(** sources and processes: the full name and the shortcut, as documented, stand for the same class; the full
    name is a kfunc if KFUNC is 'all' only, the shortcut unless it is None; there are no kfuncs of kfuncs *)
Theorem C77_classes (s : pyv) (env : dict pyobj) full short : shortcuts s = Ok env -> In (full, short) doc_shortcuts ->
  exists of os k, lookup full env = Some of /\ lookup short env = Some os /\
    meaning of = OClass full k /\ meaning os = OClass full k /\
    (iskfunc of = true <-> s = PText "all") /\ (iskfunc os = true <-> s <> PNone) /\
    (s <> PText "shortcuts" -> os = of).
Proof.
  intros H HI. destruct (proj1 (Forall_forall _ _) (shortcuts_ok s env H) _ HI) as (k & _ & EF & ES). simpl fst in *. simpl snd in *.
  eexists. eexists. exists k. split; [exact EF|]. split; [exact ES|].
  destruct (proj1 (proj1 (C77_setting s)) (ex_intro _ env H)) as [->|[->| ->]]; simpl;
    repeat split; intros; try congruence; auto.
Qed.
(** kfuncs of classes: variables are the arguments of __call__ but self, parameters are keyword arguments of __init__ *)
Theorem C77_class_kfuncs (s : pyv) (env : dict pyobj) full short : shortcuts s = Ok env -> In (full, short) doc_shortcuts ->
  s <> PNone ->
  exists k self1 self2 ips cps spec, lookup short env = Some (OKfunc spec (OClass full k)) /\
    init_sig k = self1 :: ips /\ call_sig k = self2 :: cps /\
    ks_call spec = map p_name cps /\ ~ In "self" (ks_call spec) /\
    (forall n d, In (n, d) (ks_init spec) <-> exists p, In p ips /\ p_kind p = KwOnly /\ p_name p = n /\ p_default p = d) /\
    (forall n, In n (map fst (ks_init spec)) -> ~ In n (ks_call spec)).
Proof.
  intros H HI NS. destruct (proj1 (Forall_forall _ _) (shortcuts_ok s env H) _ HI) as (k & EI & _ & ES). simpl fst in *. simpl snd in *.
  assert (EN : pyv_eqb s PNone = false) by (destruct s; simpl; congruence). rewrite EN in ES.
  assert (G : exists self1 self2 ips cps, init_sig k = self1 :: ips /\ call_sig k = self2 :: cps /\
    forallb (fun p => kind_eqb (p_kind p) KwOnly || kind_eqb (p_kind p) VarKw)%bool ips = true /\
    mem_str "self" (map p_name cps) = false /\
    forallb (fun p => negb (mem_str (p_name p) (map p_name cps))) ips = true).
  { clear -EI HI. unfold doc_shortcuts in HI.
    repeat (destruct HI as [HI|HI]; [injection HI as <- <-; vm_compute in EI; injection EI as <-;
      do 4 eexists; repeat split; vm_compute; reflexivity|]). destruct HI. }
  destruct G as (s1 & s2 & ips & cps & E1 & E2 & E3 & E4 & E5).
  exists k, s1, s2, ips, cps, (class_spec k). split; [exact ES|]. split; auto. split; auto.
  unfold class_spec. rewrite E1, E2. simpl. split; auto. split.
  { intro Hs. apply mem_str_In in Hs. congruence. }
  rewrite forallb_forall in E3, E5. split.
  - intros n d. rewrite in_map_iff. split.
    + intros (p & E & Hp). apply filter_In in Hp. destruct Hp as [Hp NV]. injection E as <- <-. exists p. split; auto. split; auto.
      specialize (E3 p Hp). apply orb_true_iff in E3. destruct E3 as [E3|E3]; [apply kind_eqb_eq; auto|].
      unfold not_varkw in NV. rewrite E3 in NV. discriminate.
    + intros (p & Hp & HK & <- & <-). exists p. split; auto. apply filter_In. split; auto. unfold not_varkw. rewrite HK. reflexivity.
  - intros n Hn. apply in_map_iff in Hn. destruct Hn as ([n' d] & <- & Hn). apply in_map_iff in Hn. destruct Hn as (p & E & Hp).
    injection E as <- <-. apply filter_In in Hp. simpl. specialize (E5 p (proj1 Hp)). intro Hs. apply mem_str_In in Hs. rewrite Hs in E5. discriminate.
Qed.

(** *** analytical functions *)
Definition fun_spec (g : list (sparam pyv)) : kspec pyv :=
  mkSpec (map named (filter (fun p => kind_eqb (p_kind p) KwOnly) g))
         (map p_name (filter (fun p => negb (kind_eqb (p_kind p) KwOnly)) g)).
(** they are wrapped, unless KFUNC is None; their variables are the arguments before the star, their parameters
    the others *)
Theorem C77_functions (s : pyv) (env : dict pyobj) name f g : shortcuts s = Ok env -> In (name, OFun f g) imported ->
  exists o, lookup name env = Some o /\ meaning o = OFun f g /\ (iskfunc o = true <-> s <> PNone) /\
    forall spec w, o = OKfunc spec w ->
      (forall n, In n (ks_call spec) <-> exists p, In p g /\ p_kind p <> KwOnly /\ p_name p = n) /\
      (forall n d, In (n, d) (ks_init spec) <-> exists p, In p g /\ p_kind p = KwOnly /\ p_name p = n /\ p_default p = d).
Proof.
  intros H HI.
  assert (G : lookup name env = Some (if pyv_eqb s PNone then OFun f g else OKfunc (fun_spec g) (OFun f g))).
  { destruct (cases s env H) as [[-> ->]|[[-> ->]|[-> ->]]]; clear H; vm_compute in HI;
    repeat (destruct HI as [HI|HI]; [first [discriminate HI|injection HI as <- <- <-; vm_compute; reflexivity]|]); destruct HI. }
  exists (if pyv_eqb s PNone then OFun f g else OKfunc (fun_spec g) (OFun f g)). split; [exact G|].
  assert (HS : pyv_eqb s PNone = true <-> s = PNone) by (destruct s; simpl; split; congruence).
  clear H HI G. destruct (pyv_eqb s PNone).
  - split; [reflexivity|]. split; [split; [discriminate|intro N; destruct N; apply HS; reflexivity]|discriminate].
  - split; [reflexivity|]. split; [split; [intros _ E; apply HS in E; discriminate|reflexivity]|].
    intros spec w E. injection E as <- <-. simpl. split.
    + intro n. rewrite in_map_iff. split.
      * intros (p & E & Hp). apply filter_In in Hp. destruct Hp as [Hp HK]. exists p. split; auto. split; auto.
        intro A. rewrite A in HK. discriminate.
      * intros (p & Hp & HK & E). exists p. split; auto. apply filter_In. split; auto.
        apply negb_true_iff, not_true_iff_false. rewrite kind_eqb_eq. auto.
    + intros n d. rewrite in_map_iff. split.
      * intros (p & E & Hp). apply filter_In in Hp. destruct Hp as [Hp HK]. injection E as <- <-. exists p. split; auto. split; auto.
        apply kind_eqb_eq; auto.
      * intros (p & Hp & HK & <- & <-). exists p. split; auto. apply filter_In. split; auto. rewrite HK. reflexivity.
Qed.
(** the hw1f functions are those of Ornstein-Uhlenbeck processes, each the one of the same kind *)
Theorem C77_hw1f (s : pyv) (env : dict pyobj) x : shortcuts s = Ok env -> In x ["mean"; "var"; "std"; "pdf"; "cdf"] ->
  exists o o' g, lookup ("hw1f_" ++ x) env = Some o /\ lookup ("oruh_" ++ x) env = Some o' /\
    meaning o = OFun ("oruh_" ++ x) g /\ meaning o' = OFun ("oruh_" ++ x) g.
Proof.
  intros H HX. destruct (cases s env H) as [[-> ->]|[[-> ->]|[-> ->]]]; clear H;
    repeat (destruct HX as [<-|HX]; [eexists; eexists; eexists; split; [vm_compute; reflexivity|split; [vm_compute; reflexivity|split; vm_compute; reflexivity]]|]); destruct HX.
Qed.
Print Assumptions C77_hw1f.

(** a call with some variable is the call of the unwrapped function *)
Theorem C77_transparent {V W : Type} (spec : kspec V) (f : W -> list V -> dict V -> W * res V) w h vars (kwargs : dict V) :
  any_order f -> NoDup (map fst kwargs) ->
  (vars <> [] \/ exists k, In k (map fst kwargs) /\ In k (ks_call spec)) ->
  let '(w', h', r) := kf_new (fun_cls spec f) w h vars kwargs in
  w' = fst (f w vars kwargs) /\ r = rmap OVal (snd (f w vars kwargs)) /\ exists o, h' = (h ++ [o])%list.
Proof.
  intros AO ND HV. unfold kf_new, make. simpl kc_init. cbv iota beta.
  set (c := fun_cls spec f).
  assert (NE : (nonempty vars || nonempty (call_args c kwargs))%bool = true).
  { apply orb_true_iff. destruct HV as [HV|(k & Hk & VK)].
    - left. destruct vars; [congruence|reflexivity].
    - right. apply in_map_iff in Hk. destruct Hk as ([k' a] & <- & HI).
      assert (HF : In (k', a) (call_args c kwargs)) by (apply filter_In; split; auto; apply is_call_iff; auto).
      destruct (call_args c kwargs); [destruct HF|reflexivity]. }
  rewrite NE. unfold c at 1. simpl kc_call.
  assert (EX : existsb (fun k => mem_str k (M_args.keys (init_args c kwargs))) (M_args.keys (call_args c kwargs)) = false).
  { apply existsb_disj. intros k H1 H2. apply (split_init_keys c kwargs k H2), (split_call_keys c kwargs k H1). }
  rewrite EX.
  assert (EF : f w vars (call_args c kwargs ++ init_args c kwargs) = f w vars kwargs).
  { apply AO; auto.
    - rewrite map_app. apply L_nd.NoDup_app2; try (apply filter_nodup; exact ND).
      intros k H1 H2. apply (split_init_keys c kwargs k H2), (split_call_keys c kwargs k H1).
    - intro k. rewrite lookup_app.
      replace (lookup k (call_args c kwargs)) with (if is_call c k then lookup k kwargs else None)
        by (symmetry; apply (lookup_filter (is_call c))).
      replace (lookup k (init_args c kwargs)) with (if negb (is_call c k) then lookup k kwargs else None)
        by (symmetry; apply (lookup_filter (fun k => negb (is_call c k)))).
      destruct (is_call c k); simpl; [destruct (lookup k kwargs); reflexivity|reflexivity]. }
  rewrite EF. destruct (f w vars kwargs) as [w' r]. simpl. eauto.
Qed.
(** a call without variables never evaluates the function: it makes an instance *)
Theorem C77_instance {V W : Type} (spec : kspec V) (f : W -> list V -> dict V -> W * res V) w h (kwargs : dict V) :
  (forall k, In k (map fst kwargs) -> ~ In k (ks_call spec)) ->
  kf_new (fun_cls spec f) w h [] kwargs = (w, h ++ [mkObj kwargs None kwargs], Ok (OObj (List.length h)))%list.
Proof.
  intro H. unfold kf_new. destruct (init_all (fun_cls spec f) kwargs H) as [-> ->]. reflexivity.
Qed.

(** *** documented parameters of processes *)
Lemma docs_ok n p doc ids : lookup n presets = Some p -> lookup n documented = Some doc -> Permutation ids (pr_ids p) ->
  doc_ok p doc ids = true.
Proof.
  intros E1 E2 HP.
  assert (AL : forall p' doc', In (p', doc') (flat_map (fun n => match lookup n presets, lookup n documented with
      | Some p, Some d => [(p, d)] | _, _ => [] end) (map fst presets)) ->
      (pr_ids p' = ["dt"; "dw"] \/ pr_ids p' = ["dt"; "dw"; "dj"]) /\
      (pr_ids p' = ["dt"; "dw"] -> doc_ok p' doc' ["dt"; "dw"] = true /\ doc_ok p' doc' ["dw"; "dt"] = true) /\
      (pr_ids p' = ["dt"; "dw"; "dj"] -> Forall (fun ids => doc_ok p' doc' ids = true)
         [["dt"; "dw"; "dj"]; ["dt"; "dj"; "dw"]; ["dw"; "dt"; "dj"]; ["dw"; "dj"; "dt"]; ["dj"; "dt"; "dw"]; ["dj"; "dw"; "dt"]])).
  { intros p' doc' H. vm_compute in H.
    repeat (destruct H as [H|H]; [injection H as <- <-; split; [first [left; reflexivity|right; reflexivity]|]; split; intro EP;
       [first [discriminate EP|split; vm_compute; reflexivity]
       |first [discriminate EP|repeat (apply Forall_cons; [vm_compute; reflexivity|]); apply Forall_nil]]|]). destruct H. }
  specialize (AL p doc). destruct AL as ([A|A] & A1 & A2).
  { apply in_flat_map. exists n. split.
    - apply lookup_In in E1. apply in_map_iff. exists (n, p). auto.
    - rewrite E1, E2. left. reflexivity. }
  - rewrite A in HP. destruct (A1 A) as [B1 B2]. apply Permutation_sym, Permutation_length_2_inv in HP. destruct HP as [->| ->]; auto.
  - rewrite A in HP. specialize (A2 A). rewrite Forall_forall in A2. apply A2.
    clear -HP. assert (HL := Permutation_length HP). destruct ids as [|a [|b [|c [|d l]]]]; try discriminate.
    assert (ND : NoDup [a; b; c]).
    { eapply Permutation_NoDup; [apply Permutation_sym, HP|]. repeat constructor; simpl; intuition discriminate. }
    assert (Ia : In a ["dt"; "dw"; "dj"]) by (eapply Permutation_in; [exact HP|simpl; auto]).
    assert (Ib : In b ["dt"; "dw"; "dj"]) by (eapply Permutation_in; [exact HP|simpl; auto]).
    assert (Ic : In c ["dt"; "dw"; "dj"]) by (eapply Permutation_in; [exact HP|simpl; auto]).
    inversion ND as [|? ? N1 ND1]; subst. inversion ND1 as [|? ? N2 _]; subst. simpl in *.
    destruct Ia as [<-|[<-|[<-|[]]]], Ib as [<-|[<-|[<-|[]]]], Ic as [<-|[<-|[<-|[]]]]; tauto.
Qed.
(** each preset process has the documented parameters and no other, whatever the order sources are iterated on: any
    other keyword is a TypeError; each parameter has the value given, else the documented default *)
Theorem C77_documented n p doc ids kwargs : lookup n presets = Some p -> lookup n documented = Some doc ->
  Permutation ids (pr_ids p) -> NoDup (map fst kwargs) ->
  ((exists d, instantiate p ids kwargs = Ok d) <-> forall k, In k (map fst kwargs) -> In k (map fst doc)) /\
  (forall x, instantiate p ids kwargs = Err x -> x = TypeError) /\
  forall d, instantiate p ids kwargs = Ok d -> NoDup (map fst d) /\ forall k, lookup k d = call_value doc kwargs k.
Proof. intros E1 E2 HP ND. apply instance_spec; auto. eapply docs_ok; eauto. Qed.
(** all preset processes are documented *)
Theorem C77_all_documented n : In n process_names <-> (lookup n presets <> None /\ lookup n documented <> None).
Proof.
  split.
  - intro H. vm_compute in H. repeat (destruct H as [<-|H]; [vm_compute; split; discriminate|]). destruct H.
  - intros [H _]. apply lookup_keys in H. exact H.
Qed.

(** "Function arguments are consistent with those of the corresponding processes" (__init__.py 60-61): keywords
    of an analytical function are accepted by the corresponding process, and mean the same, given or not *)
Definition consistent_b (g : list (sparam pyv)) (doc : dict pyv) : bool :=
  forallb (fun q => match lookup (fst q) doc with
    | None => false
    | Some w => pyv_sb (snd q) w || (String.eqb (fst q) "rho" && pyv_sb (snd q) (PNum 0) && pyv_sb w PNone) ||
                match snd q, w with PTuple [c; c'], PNum c'' => q_sb c c' && q_sb c c'' | _, _ => false end
    end)%bool (kw_defaults g).
Lemma consistent_ok g doc k v : consistent_b g doc = true -> lookup k (kw_defaults g) = Some v ->
  exists w, lookup k doc = Some w /\ agree k v w.
Proof.
  intros H E. unfold consistent_b in H. rewrite forallb_forall in H. specialize (H _ (lookup_In _ _ _ E)). simpl in H.
  destruct (lookup k doc) as [w|]; [|discriminate]. exists w. split; auto.
  apply orb_true_iff in H. destruct H as [H|H].
  - apply orb_true_iff in H. destruct H as [H|H]; [left; apply pyv_sb_eq; auto|].
    apply andb_true_iff in H. destruct H as [H H3]. apply andb_true_iff in H. destruct H as [H1 H2].
    right. left. apply String.eqb_eq in H1. apply pyv_sb_eq in H2, H3. auto.
  - right. right. destruct v as [| |[|c [|c' [|]]]| | |]; try discriminate. destruct w; try discriminate.
    apply andb_true_iff in H. destruct H as [H1 H2]. apply q_sb_eq in H1, H2. subst. eauto.
Qed.
Theorem C77_consistent f g n p ids kwargs : In (f, g) functions0 -> process_of f = Some n -> lookup n presets = Some p ->
  Permutation ids (pr_ids p) -> NoDup (map fst kwargs) ->
  (forall k, In k (map fst kwargs) -> In k (map fst (kw_defaults g))) ->
  exists d, instantiate p ids kwargs = Ok d /\
    forall k v, call_value (kw_defaults g) kwargs k = Some v -> exists w, lookup k d = Some w /\ agree k v w.
Proof.
  intros HF HP EP HI ND HK.
  assert (AL : exists doc, lookup n documented = Some doc /\ consistent_b g doc = true).
  { assert (A : forallb (fun q => match process_of (fst q) with
        | None => true
        | Some n => match lookup n documented with Some d => consistent_b (snd q) d | None => false end end) functions0 = true)
      by (vm_compute; reflexivity).
    rewrite forallb_forall in A. specialize (A (f, g) HF). cbv beta in A. change (fst (f, g)) with f in A. change (snd (f, g)) with g in A.
    rewrite HP in A.
    destruct (lookup n documented) as [doc|]; [|discriminate]. exists doc. auto. }
  destruct AL as (doc & ED & EC).
  destruct (C77_documented n p doc ids kwargs EP ED HI ND) as (H1 & _ & H3).
  destruct (proj2 H1) as (d & E).
  { intros k Hk. specialize (HK k Hk). change (In k (M_args.keys (kw_defaults g))) in HK. apply key_lookup in HK. destruct HK as (v & HK).
    destruct (consistent_ok g doc k v EC HK) as (w & Ew & _). apply lookup_In in Ew. apply in_map_iff. exists (k, w). auto. }
  exists d. split; auto. intros k v Hv. destruct (H3 d E) as [_ HL]. rewrite HL. unfold call_value in *.
  destruct (lookup k (kw_defaults g)) as [dv|] eqn:EV; [|discriminate].
  destruct (consistent_ok g doc k dv EC EV) as (w & Ew & AG). rewrite Ew.
  destruct (lookup k kwargs) as [u|]; injection Hv as <-; eexists; split; eauto. left. reflexivity.
Qed.
(** every analytical function but the Black-Scholes ones has a corresponding process *)
Theorem C77_corresponding f g : In (f, g) functions0 ->
  (exists n, process_of f = Some n /\ In n process_names) \/ In f ["bsd1d2"; "bscall"; "bscall_delta"; "bsput"; "bsput_delta"].
Proof.
  intro H. unfold functions0 in H.
  repeat (destruct H as [H|H]; [injection H as <- <-; first [right; simpl; tauto|left; eexists; split; [vm_compute; reflexivity|simpl; tauto]]|]).
  destruct H.
Qed.
Print Assumptions C77_setting.
Print Assumptions C77_classes.
Print Assumptions C77_class_kfuncs.
Print Assumptions C77_functions.
Print Assumptions C77_transparent.
Print Assumptions C77_instance.
Print Assumptions C77_documented.
Print Assumptions C77_all_documented.
Print Assumptions C77_consistent.
Print Assumptions C77_corresponding.

(** *** Examples *)
(** as configured, shortcuts are kfuncs and full names are not; the comment at shortcuts.py 75 describes this
    setting, not None *)
Definition kf_names (s : pyv) (l : list string) : res (list (option bool)) :=
  rmap (fun env => map (fun n => option_map iskfunc (lookup n env)) l) (shortcuts s).
Example C77_ex_default : kf_names KFUNC ["dw"; "wiener_source"; "heston_xy"; "full_heston_process"; "wiener_mean"; "hw1f_cdf"; "dz"]
  = Ok [Some true; Some false; Some true; Some false; Some true; Some true; None].
Proof. vm_compute. reflexivity. Qed.
Example C77_ex_none : kf_names PNone ["dw"; "wiener_source"; "wiener_mean"] = Ok [Some false; Some false; Some false].
Proof. vm_compute. reflexivity. Qed.
Example C77_ex_all : kf_names (PText "all") ["dw"; "wiener_source"; "wiener_mean"] = Ok [Some true; Some true; Some true].
Proof. vm_compute. reflexivity. Qed.
Example C77_ex_other : kf_names (PText "full") ["dw"] = Err ValueError /\ kf_names (PName "False") ["dw"] = Err ValueError.
Proof. vm_compute. auto. Qed.
(** variables and parameters of wiener_pdf *)
Example C77_ex_pdf : match shortcuts KFUNC with
  | Ok env => match lookup "wiener_pdf" env with
              | Some (OKfunc spec (OFun f _)) => Some (f, ks_call spec, map fst (ks_init spec))
              | _ => None end
  | Err _ => None end = Some ("wiener_pdf", ["t"; "x"], ["x0"; "mu"; "sigma"]).
Proof. vm_compute. reflexivity. Qed.
(** kou_jumpdiff_process(paths=100, lam=y) with an unknown parameter, and without *)
Definition ex_kou (kwargs : dict pyv) : res (dict pyv) :=
  match lookup "kou_jumpdiff_process" presets with Some p => instantiate p ["dj"; "dt"; "dw"] kwargs | None => Err KeyError end.
Example C77_ex_kou : rmap (fun d => map (fun k => lookup k d) ["paths"; "lam"; "a"; "pa"; "x0"; "theta"])
    (ex_kou [("lam", PObj 7); ("paths", PNum 100)])
  = Ok [Some (PNum 100); Some (PObj 7); Some (PNum (1 # 2)); Some (PNum (1 # 2)); Some (PNum 1); None].
Proof. vm_compute. reflexivity. Qed.
Example C77_ex_kou_y : ex_kou [("y", PObj 7)] = Err TypeError.
Proof. vm_compute. reflexivity. Qed.
(** kou_mean has parameters pa, a, b; kou_jumpdiff_process(pa=v) has the same a *)
Example C77_ex_consistent : process_of "kou_mean" = Some "kou_jumpdiff_process" /\ process_of "hw2f_std" = Some "hull_white_process" /\
  process_of "heston_log_pdf" = Some "heston_process" /\ process_of "bscall" = None.
Proof. vm_compute. auto. Qed.
(** wiener_mean(t=2, mu=3), of the function and of the kfunc; without t the kfunc makes an instance *)
Definition ex_mean (w : nat) (vars : list Z) (d : dict Z) : nat * res Z :=
  match vars, lookup "t" d with
  | [t], None | [], Some t => (S w, Ok (match lookup "mu" d with Some m => m | None => 0 end * t)%Z)
  | _, _ => (w, Err TypeError)
  end.
Example C77_ex_call : let c := fun_cls (mkSpec [("mu", Some 0%Z)] ["t"]) ex_mean in
  fst (fst (kf_new c 5%nat [] [] [("mu", 3%Z); ("t", 2%Z)])) = 6%nat /\ snd (kf_new c 5%nat [] [] [("mu", 3%Z); ("t", 2%Z)]) = Ok (OVal 6%Z) /\
  snd (kf_new c 5%nat [] [2%Z] [("mu", 3%Z)]) = Ok (OVal 6%Z) /\ snd (kf_new c 5%nat [] [] [("mu", 3%Z)]) = Ok (OObj 0%nat).
Proof. vm_compute. auto. Qed.
