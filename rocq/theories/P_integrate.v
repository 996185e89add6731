(** Properties of the integrate decorator: C66. *)
From Coq Require Import String List Arith Bool Lia ZArith Reals Lra.
From Verif Require Import Base BaseOrd BaseNum BaseArr BaseNd BaseIdx M_paths S_paths M_process M_source M_sde S_sde L_sde M_presets M_integrate S_integrate P_sde P_source4 L_args.
Import ListNotations.

Section D.
Context {T V : Type} {NV : Num V}.
Implicit Types f : pyfun T V.
Variable tone : T.

(** *** the class made *)
Lemma test_value_spec f v : test_value tone f = Ok v <-> tested tone f v.
Proof.
  unfold test_value, tested. destruct (pycall f [] []) as [a|e] eqn:E.
  - split; [intro H; injection H as ->; auto|]. intros [H|[H _]]; [congruence|exfalso; apply (H a); reflexivity].
  - split.
    + destruct (pycall f [VT tone; VA (ascalar none)] []) as [b|] eqn:E2; [|intro H; discriminate H]. intro H; injection H as ->. right. split; [congruence|reflexivity].
    + intros [H|[_ H]]; [discriminate|]. rewrite H. reflexivity.
Qed.
Lemma test_value_err f e : test_value tone f = Err e <-> e = TypeError /\ forall v, ~ tested tone f v.
Proof.
  split.
  - intro H. split.
    + unfold test_value in H. destruct (pycall f [] []); [discriminate|]. destruct (pycall f _ _); congruence.
    + intros v K. apply test_value_spec in K. congruence.
  - intros [-> H]. destruct (test_value tone f) as [v|e] eqn:E; [exfalso; exact (H v (proj1 (test_value_spec f v) E))|].
    unfold test_value in E. destruct (pycall f [] []); [discriminate|]. destruct (pycall f _ _); congruence.
Qed.
Lemma mapr_keys l ks : mapr (@keys_of V) l = Ok ks -> exists ds, l = map (@RDict V) ds /\ ks = map keys ds.
Proof.
  revert ks. induction l as [|z l IH]; cbn [mapr]; intros ks H; [injection H as <-; exists []; auto|].
  destruct z; try discriminate. cbn [keys_of rbind] in H. destruct (mapr _ l) as [k|]; [|discriminate]. cbn [rbind] in H. injection H as <-.
  destruct (IH k eq_refl) as (ds & -> & ->). exists (d :: ds). auto.
Qed.
Lemma mapr_keys_ok ds : mapr (@keys_of V) (map (@RDict V) ds) = Ok (map keys ds).
Proof. induction ds as [|d ds IH]; [reflexivity|]. cbn [map mapr keys_of rbind]. rewrite IH. reflexivity. Qed.
Lemma mapr_keys_err l e : mapr (@keys_of V) l = Err e -> e = AttributeError.
Proof. induction l as [|z l IH]; cbn [mapr]; [discriminate|]. destruct z; cbn [keys_of rbind]; try congruence. destruct (mapr _ l); cbn [rbind]; [discriminate|]. intro H. apply IH. congruence. Qed.
Lemma in_keys {A} k (d : dict A) : In k (keys d) <-> exists c, In (k, c) d.
Proof. unfold keys. rewrite in_map_iff. split; [intros ([k' c] & <- & H); eauto|intros [c H]; exists (k, c); auto]. Qed.
Lemma mem_In k l : mem k l = true <-> In k l.
Proof. unfold mem. rewrite existsb_exists. split; [intros (x & H & E); apply String.eqb_eq in E; subst; auto|intro H; exists k; split; [auto|apply String.eqb_refl]]. Qed.
Lemma subset_incl l m : subset l m = true <-> incl l m.
Proof. unfold subset. rewrite forallb_forall. split; intros H k K; [apply mem_In|apply mem_In]; auto. Qed.
Lemma set_eq_spec l m : set_eq l m = true <-> (forall k, In k l <-> In k m).
Proof. unfold set_eq. rewrite andb_true_iff, !subset_incl. split; [intros [A B] k; split; auto|intro H; split; intros k K; apply H; auto]. Qed.
Lemma set_of_In l k : In k (set_of l) <-> In k l.
Proof. apply nodup_In. Qed.

(** what the test evaluation shows, as computed *)
Definition shown (v : sdeval V) : res (nat * list string) :=
  rbind (match v with RSeq [] => Err ValueError | RSeq l => Ok (List.length l, l) | _ => Ok (0, [v]) end)
        (fun '(n, vs) => rbind (mapr keys_of vs) (fun ks => Ok (n, set_of (List.concat ks)))).
Lemma shown_shows v q ids : shown v = Ok (q, ids) -> shows v q ids /\ NoDup ids.
Proof.
  unfold shown. destruct v as [d|l|]; cbn [rbind].
  - cbn [mapr keys_of rbind]. intro H. injection H as <- <-. split; [|apply NoDup_nodup]. constructor. intro k. rewrite set_of_In. cbn [List.concat app]. rewrite app_nil_r. apply in_keys.
  - destruct l as [|z l]; [intro H; discriminate H|]. cbn [rbind].
    destruct (mapr keys_of (z :: l)) as [ks|] eqn:E; [|intro H; discriminate H]. apply mapr_keys in E. destruct E as (ds & E & ->). cbn [rbind]. intro H. injection H as <- <-.
    split; [|apply NoDup_nodup]. change (S (List.length l)) with (List.length (z :: l)). rewrite E, map_length. constructor; [intro; subst; discriminate|]. intro k. rewrite set_of_In, in_concat. split.
    + intros (x & X & K). apply in_map_iff in X. destruct X as (d & <- & D). apply in_keys in K. destruct K as [c K]. eauto.
    + intros (d & c & D & K). exists (keys d). split; [apply in_map; auto|]. apply in_keys. eauto.
  - intro H; discriminate H.
Qed.
Lemma shows_shown v q ids : shows v q ids -> exists ids', shown v = Ok (q, ids') /\ NoDup ids' /\ forall k, In k ids <-> In k ids'.
Proof.
  intro H. assert (K : exists ids', shown v = Ok (q, ids')).
  { destruct H as [d ids H|ds ids N H]; unfold shown; [cbn [rbind mapr keys_of]; eauto|]. destruct ds as [|d ds]; [contradiction|]. cbn [map rbind]. change (RDict d :: map (@RDict V) ds) with (map (@RDict V) (d :: ds)). rewrite mapr_keys_ok. cbn [rbind]. rewrite map_length. eauto. }
  destruct K as [ids' K]. exists ids'. destruct (shown_shows _ _ _ K) as [S N]. split; [exact K|]. split; [exact N|]. intro k.
  destruct H as [d ids H|ds ids Z H]; inversion S as [d' i' H'|ds' i' Z' H' E]; subst; [rewrite H, H'; tauto|].
  assert (ds' = ds); [|subst; rewrite H, H'; tauto]. revert E. clear. revert ds. induction ds'; intros [|? ?]; cbn; congruence || (intro H; injection H as -> H; f_equal; auto).
Qed.
Lemma shown_err v e : shown v = Err e -> (v = RSeq [] /\ e = ValueError) \/ (v <> RSeq [] /\ e = AttributeError).
Proof.
  unfold shown. destruct v as [d|[|z l]|]; cbn [rbind mapr keys_of]; intro H.
  - discriminate.
  - left. split; congruence.
  - right. split; [discriminate|]. destruct (keys_of z) as [k|] eqn:E1; cbn [rbind] in H.
    + destruct (mapr keys_of l) eqn:E2; cbn [rbind] in H; [discriminate|]. injection H as <-. eapply mapr_keys_err; eauto.
    + destruct z; try discriminate; cbn in E1; congruence.
  - right. split; congruence.
Qed.
Lemma from_function_shown f q sources log addaxis : q = None \/ sources = None ->
  from_function tone f q sources log addaxis =
    rbind (test_value tone f) (fun v => rbind (shown v) (fun '(n, ids) =>
      if (match q with Some m => negb (Nat.eqb m n) | None => false end) || (match sources with Some l => negb (set_eq (set_of l) ids) | None => false end)
      then Err TypeError else Ok (mkCls n ids log addaxis))).
Proof.
  intro H. unfold from_function, shown. destruct q as [m|], sources as [l|]; [destruct H; discriminate|..];
  (destruct (test_value tone f) as [v|]; [|reflexivity]; cbn [rbind]; destruct v as [d|[|z lz]|]; try reflexivity; cbn [rbind]; destruct (mapr keys_of _); reflexivity).
Qed.

(** without q or sources, the class has the number of equations and the differentials of the test evaluation *)
Theorem C66_inferred f log addaxis c : from_function tone f None None log addaxis = Ok c ->
  exists v, tested tone f v /\ shows v (c_q c) (c_ids c) /\ NoDup (c_ids c) /\ c_log c = log /\ c_addaxis c = addaxis.
Proof.
  rewrite from_function_shown by auto. destruct (test_value tone f) as [v|] eqn:E; [|discriminate]. cbn [rbind]. destruct (shown v) as [[n ids]|] eqn:S; [|discriminate]. cbn [rbind orb]. intro H. injection H as <-.
  exists v. destruct (shown_shows _ _ _ S) as [A B]. split; [apply test_value_spec; exact E|]. cbn. auto.
Qed.
Theorem C66_inferable f log addaxis v q ids : tested tone f v -> shows v q ids ->
  exists c, from_function tone f None None log addaxis = Ok c /\ c_q c = q /\ (forall k, In k (c_ids c) <-> In k ids).
Proof.
  intros E S. apply test_value_spec in E. apply shows_shown in S. destruct S as (ids' & S & _ & I). rewrite from_function_shown by auto. rewrite E. cbn [rbind]. rewrite S. cbn [rbind orb].
  eexists. split; [reflexivity|]. cbn. split; [reflexivity|]. intro k. symmetry. apply I.
Qed.
(** otherwise an error is raised, the same whatever of q and sources is given *)
Theorem C66_refused f q sources log addaxis : q = None \/ sources = None ->
  ((forall v, ~ tested tone f v) -> from_function tone f q sources log addaxis = Err TypeError) /\
  (tested tone f (RSeq []) -> from_function tone f q sources log addaxis = Err ValueError) /\
  (forall v, tested tone f v -> v <> RSeq [] -> (forall n ids, ~ shows v n ids) -> from_function tone f q sources log addaxis = Err AttributeError).
Proof.
  intro Q. rewrite from_function_shown by auto. split; [|split].
  - intro H. rewrite (proj2 (test_value_err f TypeError)) by auto. reflexivity.
  - intro H. apply test_value_spec in H. rewrite H. reflexivity.
  - intros v H N S. apply test_value_spec in H. rewrite H. cbn [rbind]. destruct (shown v) as [[n ids]|e] eqn:E; [exfalso; eapply S; apply shown_shows; exact E|].
    apply shown_err in E. destruct E as [[-> _]|[_ ->]]; [contradiction|reflexivity].
Qed.
(** if one of q and sources is given and agrees with the test the class is that of the test, else TypeError *)
Theorem C66_consistent f q sources log addaxis c : q = None \/ sources = None -> from_function tone f None None log addaxis = Ok c ->
  ((forall m, q = Some m -> m = c_q c) -> (forall l, sources = Some l -> forall k, In k l <-> In k (c_ids c)) -> from_function tone f q sources log addaxis = Ok c) /\
  (forall m, q = Some m -> m <> c_q c -> from_function tone f q sources log addaxis = Err TypeError) /\
  (forall l k, sources = Some l -> ~ (In k l <-> In k (c_ids c)) -> from_function tone f q sources log addaxis = Err TypeError).
Proof.
  intro Q. rewrite !from_function_shown by auto. destruct (test_value tone f) as [v|]; [|discriminate]. cbn [rbind]. destruct (shown v) as [[n ids]|]; [|discriminate]. cbn [rbind orb]. intro H. injection H as <-. cbn [c_q c_ids]. split; [|split].
  - intros A B. destruct q as [m|]; [rewrite (A m eq_refl), Nat.eqb_refl|]; cbn [negb orb].
    + destruct Q as [Q|Q]; [discriminate|]. rewrite Q. reflexivity.
    + destruct sources as [l|]; [|reflexivity]. replace (set_eq (set_of l) ids) with true; [reflexivity|]. symmetry. apply set_eq_spec. intro k. rewrite set_of_In. apply B; auto.
  - intros m -> N. destruct (Nat.eqb_spec m n); [contradiction|]. reflexivity.
  - intros l k -> N. destruct (set_eq (set_of l) ids) eqn:E; [|rewrite orb_comm; reflexivity]. exfalso. apply N. rewrite <- (proj1 (set_eq_spec _ _) E k); symmetry; apply set_of_In.
Qed.
(** if both are given nothing is evaluated *)
Theorem C66_given f n l log addaxis :
  exists ids, from_function tone f (Some n) (Some l) log addaxis = Ok (mkCls n ids log addaxis) /\ NoDup ids /\ forall k, In k ids <-> In k l.
Proof. exists (set_of l). split; [reflexivity|]. split; [apply NoDup_nodup|apply set_of_In]. Qed.

(** *** the equation, as called by the integrator *)
Lemma lookup_values k args a : NoDup (keys args) -> In (k, a) args -> lookup k (values_kw args) = Some (VA (T := T) (V := V) a).
Proof.
  induction args as [|[k' b] args IH]; [intros _ []|]. cbn [keys map fst values_kw lookup]. intros N I. inversion N as [|? ? NI N']; subst.
  destruct I as [E|I]; [injection E as -> ->; rewrite String.eqb_refl; reflexivity|]. destruct (String.eqb_spec k k') as [->|]; [|apply IH; auto]. exfalso. apply NI. apply in_keys. eauto.
Qed.
Lemma keys_values (args : dict (arr V)) : keys (values_kw (T := T) args) = keys args.
Proof. unfold keys, values_kw. rewrite map_map. apply map_ext. intros [k a]. reflexivity. Qed.
Lemma bind_by_name ps (args : dict (arr V)) vs : NoDup (keys args) -> by_name ps args vs -> bind_args (T := T) (V := V) ps [] (values_kw args) = Ok vs.
Proof.
  intros N H. induction H as [|[k d] v ps vs (a & I & ->) _ IH]; [reflexivity|]. cbn [bind_args fst] in *. rewrite (lookup_values _ _ _ N I). cbn [rbind]. rewrite IH. reflexivity.
Qed.
Lemma bind_positional ps1 ps2 pos kw vs : List.length ps1 = List.length pos -> (forall k, In k (map fst ps1) -> ~ In k (keys kw)) ->
  bind_args (T := T) (V := V) ps2 [] kw = Ok vs -> bind_args (ps1 ++ ps2) pos kw = Ok (pos ++ vs).
Proof.
  intros L D B. revert pos L. induction ps1 as [|[k d] ps1 IH]; intros [|v pos] L; try discriminate; [exact B|]. cbn [app bind_args].
  destruct (mem k (keys kw)) eqn:M; [exfalso; apply mem_In in M; apply (D k); [left; reflexivity|exact M]|]. rewrite IH; [reflexivity|intros j J; apply D; right; exact J|injection L; auto].
Qed.
Lemma positional_call f xs ps1 ps2 args vs : pf_params f = ps1 ++ ps2 -> List.length ps1 = List.length xs -> NoDup (map fst (pf_params f)) ->
  NoDup (keys args) -> (forall k, In k (keys args) -> In k (map fst ps2)) -> by_name ps2 args vs -> pycall f xs (values_kw args) = pf_body f (xs ++ vs).
Proof.
  intros E L N NA K B. unfold pycall. replace (forallb _ _) with true.
  - rewrite E, (bind_positional ps1 ps2 xs (values_kw args) vs); [reflexivity|exact L| |apply bind_by_name; auto].
    rewrite keys_values. intros k I1 I2. apply K in I2. rewrite E, map_app in N. revert I1 I2. clear -N. revert N. induction (map fst ps1) as [|x l IH]; [intros _ []|]. cbn [app]. intro N. inversion N as [|? ? NI N']; subst. intros [->|I1] I2; [apply NI, in_app_iff; auto|apply IH; auto].
  - symmetry. apply forallb_forall. rewrite keys_values. intros k I. apply mem_In. rewrite E, map_app. apply in_app_iff. auto.
Qed.
(** time and values are bound to the first parameters, the parameters of the equation to those of the same name *)
Theorem C66_call f t x p1 p2 ps args vs : pf_params f = p1 :: p2 :: ps -> NoDup (map fst (pf_params f)) -> NoDup (keys args) ->
  (forall k, In k (keys args) -> In k (map fst ps)) -> by_name ps args vs -> sde_method f t x args = pf_body f (VT t :: VA x :: vs).
Proof. intros E N NA K B. unfold sde_method. apply (positional_call f [VT t; VA x] [p1; p2] ps args vs); auto. Qed.
Theorem C66_call_system f t xs p0 ps1 ps2 args vs : pf_params f = p0 :: ps1 ++ ps2 -> List.length ps1 = List.length xs -> NoDup (map fst (pf_params f)) -> NoDup (keys args) ->
  (forall k, In k (keys args) -> In k (map fst ps2)) -> by_name ps2 args vs -> sdes_method f t xs args = pf_body f (VT t :: map VA xs ++ vs).
Proof. intros E L N NA K B. unfold sdes_method. apply (positional_call f (VT t :: map VA xs) (p0 :: ps1) ps2 args vs); auto. cbn. rewrite map_length. auto. Qed.
(** default values are used for the parameters that are not given *)
Lemma lookup_none k (args : dict (arr V)) : ~ (exists a, In (k, a) args) -> lookup k (values_kw (T := T) args) = None.
Proof.
  intro N. induction args as [|[k' b] args IH]; [reflexivity|]. cbn [values_kw map lookup]. destruct (String.eqb_spec k k') as [->|NE]; [exfalso; apply N; exists b; left; reflexivity|].
  apply IH. intros [a A]. apply N. exists a. right. exact A.
Qed.
Lemma bind_by_name_or_default ps (args : dict (arr V)) vs : NoDup (keys args) -> by_name_or_default ps args vs -> bind_args (T := T) (V := V) ps [] (values_kw args) = Ok vs.
Proof.
  intros N H. induction H as [|[k d] v ps vs [(a & I & ->)|[NI D]] _ IH]; [reflexivity| |]; cbn [bind_args fst snd] in *.
  - rewrite (lookup_values _ _ _ N I). cbn [rbind]. rewrite IH. reflexivity.
  - rewrite (lookup_none _ _ NI), D. cbn [rbind]. rewrite IH. reflexivity.
Qed.
Theorem C66_call_defaults f t xs ps1 ps2 args vs : pf_params f = ps1 ++ ps2 -> List.length ps1 = S (List.length xs) -> NoDup (map fst (pf_params f)) -> NoDup (keys args) ->
  (forall k, In k (keys args) -> In k (map fst ps2)) -> by_name_or_default ps2 args vs -> sdes_method f t xs args = pf_body f (VT t :: map VA xs ++ vs).
Proof.
  intros E L N NA K B. unfold sdes_method, pycall. replace (forallb _ _) with true.
  - rewrite E, (bind_positional ps1 ps2 (VT t :: map VA xs) (values_kw args) vs); [reflexivity|cbn; rewrite map_length; exact L| |apply bind_by_name_or_default; auto].
    rewrite keys_values. intros k I1 I2. apply K in I2. rewrite E, map_app in N. revert I1 I2. clear -N. revert N. induction (map fst ps1) as [|x l IH]; [intros _ []|]. cbn [app]. intro N. inversion N as [|? ? NI N']; subst. intros [->|I1] I2; [apply NI, in_app_iff; auto|apply IH; auto].
  - symmetry. apply forallb_forall. rewrite keys_values. intros k I. apply mem_In. rewrite E, map_app. apply in_app_iff. auto.
Qed.
(** Calls that Python refuses, whatever the function computes: an argument that is not a parameter, one for a parameter already given
    by position, too few parameters for time and values, or a parameter without default that is not given. *)
Lemma bind_errors ps pos kw v : bind_args (T := T) (V := V) ps pos kw = Ok v ->
  (List.length pos <= List.length ps)%nat /\
  (forall k, In k (map fst (firstn (List.length pos) ps)) -> ~ In k (keys kw)) /\
  (forall k, In (k, None) (skipn (List.length pos) ps) -> In k (keys kw)).
Proof.
  revert pos v. induction ps as [|[k d] ps IH]; intros [|a pos] v H; cbn [bind_args] in H; try discriminate.
  - split; [auto|]. split; intros k [].
  - destruct (lookup k kw) as [w|] eqn:EL.
    + cbn [rbind] in H. destruct (bind_args ps [] kw) as [r|] eqn:E; [|discriminate]. destruct (IH [] r E) as (_ & _ & IK). split; [cbn; lia|]. split; [intros ? []|].
      cbn [List.length skipn] in *. intros j [J|J]; [injection J as -> _|apply IK; exact J]. clear -EL. induction kw as [|[i b] kw IHk]; [discriminate|]. cbn [lookup] in EL. destruct (String.eqb_spec j i) as [Q|]; [left; symmetry; exact Q|right; apply IHk; exact EL].
    + destruct d as [w|]; [|discriminate]. cbn [rbind] in H. destruct (bind_args ps [] kw) as [r|] eqn:E; [|discriminate]. destruct (IH [] r E) as (_ & _ & IK). split; [cbn; lia|]. split; [intros ? []|].
      cbn [List.length skipn] in *. intros j [J|J]; [discriminate|apply IK; exact J].
  - destruct (mem k (keys kw)) eqn:M; [discriminate|]. destruct (bind_args ps pos kw) as [r|] eqn:E; [|discriminate]. destruct (IH pos r E) as (I1 & I2 & I3). cbn [List.length firstn skipn map fst].
    split; [lia|]. split; [|exact I3]. intros j [<-|J]; [|apply I2; exact J]. intro C. apply mem_In in C. cbn [fst] in C. congruence.
Qed.
Lemma bind_err_type ps pos kw e : bind_args (T := T) (V := V) ps pos kw = Err e -> e = TypeError.
Proof.
  revert pos. induction ps as [|[k d] ps IH]; intros [|a pos] H; cbn [bind_args] in H; try discriminate.
  - injection H as <-. reflexivity.
  - destruct (lookup k kw); [|destruct d]; cbn [rbind] in H; try (injection H as <-; reflexivity); (destruct (bind_args ps [] kw) eqn:E; [discriminate|]; cbn [rbind] in H; injection H as <-; eapply IH; exact E).
  - destruct (mem k (keys kw)); [injection H as <-; reflexivity|]. destruct (bind_args ps pos kw) eqn:E; [discriminate|]. cbn [rbind] in H. injection H as <-. eapply IH; exact E.
Qed.
Theorem C66_call_refused f t xs args :
  (exists k, In k (keys args) /\ ~ In k (map fst (pf_params f))) \/
  (exists k, In k (keys args) /\ In k (map fst (firstn (S (List.length xs)) (pf_params f)))) \/
  (List.length (pf_params f) < S (List.length xs))%nat \/
  (exists k, In (k, None) (skipn (S (List.length xs)) (pf_params f)) /\ ~ In k (keys args)) ->
  sdes_method f t xs args = Err TypeError.
Proof.
  intro H. unfold sdes_method, pycall. rewrite keys_values. destruct (forallb _ _) eqn:F; [|reflexivity].
  destruct (bind_args (pf_params f) (VT t :: map VA xs) (values_kw args)) as [v|e] eqn:E; [|cbn [rbind]; f_equal; eapply bind_err_type; exact E].
  exfalso. destruct (bind_errors _ _ _ _ E) as (I1 & I2 & I3). rewrite keys_values in *. cbn [List.length] in *. rewrite map_length in *.
  destruct H as [(k & A & N)|[(k & A & B)|[L|(k & A & N)]]].
  - rewrite forallb_forall in F. apply N. apply mem_In. apply F. exact A.
  - apply (I2 k B). exact A.
  - lia.
  - apply N. apply I3. exact A.
Qed.
(** a third parameter without default value: the test evaluation cannot succeed, q and sources have to be given *)
Lemma bind_short ps pos n k : nth_error ps n = Some (k, None) -> (List.length pos <= n)%nat -> bind_args (T := T) (V := V) ps pos [] = Err TypeError.
Proof.
  revert ps pos. induction n as [|n IH]; intros [|[j d] ps] pos H L; try discriminate; cbn [nth_error] in H.
  - injection H as -> ->. destruct pos; [reflexivity|cbn in L; lia].
  - destruct pos as [|v pos]; cbn [bind_args lookup keys map].
    + destruct d; [|reflexivity]. cbn [rbind]. rewrite (IH ps []); [reflexivity|exact H|cbn; lia].
    + cbn [mem existsb]. rewrite IH; [reflexivity|exact H|cbn in L; lia].
Qed.
Theorem C66_untested f q sources log addaxis n k : nth_error (pf_params f) n = Some (k, None) -> (2 <= n)%nat -> q = None \/ sources = None ->
  from_function tone f q sources log addaxis = Err TypeError.
Proof.
  intros H L Q. apply C66_refused; [exact Q|]. intros v [E|[_ E]]; unfold pycall in E; cbn [keys map forallb] in E; rewrite (bind_short _ _ n k) in E; auto; try discriminate; cbn; lia.
Qed.
End D.
Print Assumptions C66_call_defaults.
Print Assumptions C66_call_refused.

(** *** integration *)
Section Run.
Context {G : Type}.
Variables (normal : list nat -> G -> res (arr R) * G) (mvnormal : arr R -> list nat -> G -> res (arr R) * G)
          (poisson : arr R -> list nat -> G -> res (arr Z) * G) (rvs : R -> nat -> nat -> G -> res (arr R) * G).
Hypothesis N_ok : S_source.normal_ok normal.
Hypothesis M_ok : S_source.mvnormal_ok mvnormal.
Hypothesis P_ok : S_source.poisson_ok poisson.
Hypothesis R_ok : forall tm m j g, exists y g', rvs tm m j g = (Ok y, g') /\ shp y = [m; j].
Variable zval : Z -> R.
Variables (f : pyfun R R) (c : sclass) (log addaxis : bool) (d0 : dict (arr R)) (p1 p2 : string * option (val R R)) (ps : list (string * option (val R R))).
Variables (set_order : list string -> list string) (gi : bool) (vshape : list nat) (paths : nat) (x0 : arr R) (args : dict (M_sde.param R R)).
Hypothesis C_made : from_function 1%R f None None log addaxis = Ok c.
Hypothesis C_test : tested 1%R f (RDict d0).
Hypothesis F_params : pf_params f = p1 :: p2 :: ps.
Hypothesis F_names : NoDup (map fst (pf_params f)).
Hypothesis A_names : NoDup (keys args).
Hypothesis A_same : forall k, In k (keys args) <-> In k (map fst ps).

(** the values of the parameters at time t *)
Definition now (t : R) : dict (arr R) := map (fun '(k, z) => (k, peval t z)) args.
Lemma keys_now t : keys (now t) = keys args.
Proof. unfold now, keys. rewrite map_map. apply map_ext. intros [k z]. reflexivity. Qed.
Lemma named_now t : exists vs, by_name ps (now t) vs.
Proof.
  assert (H : forall p, In p ps -> exists a, In (fst p, a) (now t)). { intros p I. apply in_keys. rewrite keys_now, A_same. apply in_map; auto. }
  unfold by_name. clear -H. induction ps as [|p l IH]; [exists []; constructor|]. destruct IH as [vs V]; [intros; apply H; right; auto|]. destruct (H p (or_introl eq_refl)) as [a A]. exists (VA a :: vs). constructor; eauto.
Qed.
Lemma class_of_test : c_q c = 0%nat /\ (forall k, In k (c_ids c) <-> In k (keys d0)) /\ c_log c = log.
Proof.
  destruct (C66_inferred _ _ _ _ _ C_made) as (v & E & S & _ & LL & _). assert (v = RDict d0). { apply test_value_spec in E. apply test_value_spec in C_test. congruence. } subst v.
  inversion S as [d ids H Ed Eq Ei|]. split; [reflexivity|]. split; [|exact LL]. intro k. rewrite in_keys. apply H.
Qed.
(** A function whose differentials are those of the test evaluation, with coefficients that broadcast, and sources ready:
    the integration completes. *)
Theorem C66_run a i0 pace_fn fuel g (timeline : list R) p0 :
  let w := vshape ++ [paths] in
  (forall id, In id (keys d0) -> ready a paths vshape id) ->
  (forall t x vs, by_name ps (now t) vs -> exists d, pf_body f (VT t :: VA (mkArr w x) :: vs) = Ok (RDict d) /\ Forall (fun '(id, k) => In id (keys d0) /\ broadcasts (shp k) w) d) ->
  broadcasts (shp x0) w ->
  valid_timeline timeline -> start_index (List.length timeline) i0 p0 -> (List.length timeline + List.length (pace_fn timeline) <= fuel)%nat ->
  exists s g' xx, sources_setup normal mvnormal poisson rvs zval a (c_ids c) paths vshape = Ok s /\
    sde_call Rminus (decorated c f set_order s gi vshape paths x0 args) i0 pace_fn fuel (g, tt) [List.length timeline] timeline = Ok ((g', tt), xx).
Proof using N_ok M_ok P_ok R_ok C_made C_test F_params F_names A_names A_same.
  intros w RD BD X0 VT SI FU. destruct class_of_test as (Q & I & L).
  destruct (C67_run normal mvnormal poisson rvs N_ok M_ok P_ok R_ok zval a (c_ids c) (c_log c) (sde_method f) vshape paths x0 args gi i0 pace_fn fuel g tt timeline p0) as (s & g' & xx & S & H); auto.
  - intros id J. apply RD. apply I. exact J.
  - intros t x. destruct (named_now t) as [vs B]. destruct (BD t x vs B) as (d & D & F). exists d. split.
    + rewrite <- D. apply C66_call with (p1 := p1) (p2 := p2) (ps := ps); auto; [change (NoDup (keys (now t))); rewrite keys_now; auto|]. intros k K. apply A_same. rewrite <- (keys_now t). exact K.
    + eapply Forall_impl; [|exact F]. intros [id k] [F1 F2]. split; [apply I; exact F1|exact F2].
  - exists s, g', xx. split; [exact S|]. unfold decorated. rewrite Q. exact H.
Qed.
(** A function that shows a differential the test evaluation did not: KeyError, for all sources. *)
Theorem C66_undeclared {Wd I : Type} (s : string -> Wd -> R -> R -> res (Wd * arr R)) i0 pace_fn fuel (st : Wd * I) (timeline : list R) p0 :
  let w := vshape ++ [paths] in
  (forall t x vs, by_name ps (now t) vs -> exists d k, pf_body f (VT t :: VA x :: vs) = Ok (RDict d) /\ In k (keys d) /\ ~ In k (keys d0)) ->
  broadcasts (shp x0) w ->
  valid_timeline timeline -> start_index (List.length timeline) i0 p0 -> (2 <= List.length timeline)%nat -> (List.length timeline + List.length (pace_fn timeline) <= fuel)%nat ->
  sde_call Rminus (decorated c f set_order s gi vshape paths x0 args) i0 pace_fn fuel st [List.length timeline] timeline = Err KeyError.
Proof using C_made C_test F_params F_names A_names A_same.
  intros w BD X0 VT SI TL FU. destruct class_of_test as (Q & J & L). unfold decorated. rewrite Q. cbn [Nat.eqb].
  apply C13_undeclared_run with (args := args) (sde := sde_method f) (p0 := p0); auto; cbn [mk_sde ig_A ig_ids ig_init ig_let ig_info_end].
  - intros t x. destruct (named_now t) as [vs B]. destruct (BD t x vs B) as (d & k & D & K1 & K2). exists d. split.
    + rewrite <- D. apply C66_call with (p1 := p1) (p2 := p2) (ps := ps); auto; [change (NoDup (keys (now t))); rewrite keys_now; auto|]. intros j K. apply A_same. rewrite <- (keys_now t). exact K.
    + intro IN. apply K2. apply J. apply IN. exact K1.
  - intro t. unfold sde_init. fold w. rewrite assign_can by (apply can_broadcasts; exact X0). eauto.
  - intros t x. unfold sde_let. rewrite assign_can by apply can_refl. eauto.
  - intros. unfold no_info_end. eauto.
Qed.
End Run.
Print Assumptions C66_inferred.
Print Assumptions C66_inferable.
Print Assumptions C66_refused.
Print Assumptions C66_consistent.
Print Assumptions C66_given.
Print Assumptions C66_call.
Print Assumptions C66_call_system.
Print Assumptions C66_untested.
Print Assumptions C66_run.
Print Assumptions C66_undeclared.

(** *** examples *)
(** def my_process(t, x, theta=1., k=1., sigma=1.): return {'dt': k*(theta - x), 'dw': sigma}, as in the documentation *)
Definition ou_fun : pyfun R R := mkFun
  [("t", None); ("x", None); ("theta", Some (VA (ascalar 1%R))); ("k", Some (VA (ascalar 1%R))); ("sigma", Some (VA (ascalar 1%R)))]%string
  (fun l => match l with
            | [VT t; VA x; VA theta; VA k; VA sigma] => rbind (aop Rminus theta x) (fun d => rbind (aop Rmult k d) (fun a => Ok (RDict [("dt", a); ("dw", sigma)]%string)))
            | _ => Err TypeError
            end).
Example C66_ex : exists c, from_function 1%R ou_fun None None false false = Ok c /\ c_q c = 0%nat /\ (forall k, In k (c_ids c) <-> k = "dt"%string \/ k = "dw"%string) /\
  map fst (sde_params c ou_fun) = ["theta"; "k"; "sigma"]%string /\
  from_function 1%R ou_fun (Some 2%nat) None false false = Err TypeError /\
  from_function 1%R ou_fun None (Some ["dw"]%string) false false = Err TypeError /\
  from_function 1%R ou_fun None (Some ["dw"; "dt"; "dw"]%string) false false = Ok c /\
  forall t (x : arr R), sde_method ou_fun t x [("sigma", ascalar 5); ("k", ascalar 3); ("theta", ascalar 2)]%R%string =
    pf_body ou_fun [VT t; VA x; VA (ascalar 2%R); VA (ascalar 3%R); VA (ascalar 5%R)].
Proof.
  eexists. split; [reflexivity|]. split; [reflexivity|]. split; [intro k; cbn; intuition congruence|]. split; [reflexivity|]. split; [reflexivity|]. split; [reflexivity|]. split; [reflexivity|].
  intros t x. reflexivity.
Qed.
Example C66_ex_run {G} (normal : list nat -> G -> res (arr R) * G) mvnormal poisson rvs zval g :
  S_source.normal_ok normal -> S_source.mvnormal_ok mvnormal -> S_source.poisson_ok poisson -> (forall tm m j g, exists y g', rvs tm m j g = (Ok y, g') /\ shp y = [m; j]) ->
  exists c s g' xx, from_function 1%R ou_fun None None false false = Ok c /\
    sources_setup normal mvnormal poisson rvs zval {| a_dw := GNone; a_corr := INone; a_rho := INone; a_dn := GNone; a_lam := INone; a_dj := GNone |} (c_ids c) 3 [] = Ok s /\
    sde_call Rminus (decorated c ou_fun (fun l => l) s false [] 3 (ascalar 1%R) [("theta", PConst (ascalar 2)); ("k", PConst (ascalar 3)); ("sigma", M_sde.PFun (fun t => ascalar t))]%R%string) 0 (fun l => l) 4 (g, tt) [2]%nat [0; 1]%R = Ok ((g', tt), xx).
Proof.
  intros N M P Rv.
  assert (E : from_function 1%R ou_fun None None false false = Ok (mkCls 0 ["dt"; "dw"]%string false false)) by reflexivity.
  assert (D : exists d0, tested 1%R ou_fun (RDict d0) /\ keys d0 = ["dt"; "dw"]%string).
  { eexists. split; [right; split; [intros v' H; discriminate H|reflexivity]|reflexivity]. }
  destruct D as (d0 & D & K).
  destruct (C66_run normal mvnormal poisson rvs N M P Rv zval ou_fun _ false false d0 ("t", None)%string ("x", None)%string (skipn 2 (pf_params ou_fun)) (fun l => l) false [] 3%nat (ascalar 1%R)
    [("theta", PConst (ascalar 2)); ("k", PConst (ascalar 3)); ("sigma", M_sde.PFun (fun t => ascalar t))]%R%string E D eq_refl) with
    (a := {| a_dw := GNone (S := src (V := R) (G := G) (arr R)); a_corr := INone; a_rho := INone; a_dn := GNone; a_lam := INone; a_dj := GNone |}) (i0 := 0%Z) (pace_fn := fun l : list R => l) (fuel := 4%nat) (g := g) (timeline := [0; 1]%R) (p0 := 0%nat) as (s & g' & xx & S & H).
  - repeat constructor; cbn; intuition discriminate.
  - repeat constructor; cbn; intuition discriminate.
  - intro k. cbn. tauto.
  - rewrite K. intros id [<-|[<-|[]]]; [apply r_dt|]. eapply r_dw with (c := PNone); [reflexivity|reflexivity|left; reflexivity].
  - intros t x vs B. rewrite K. unfold by_name in B. cbn [skipn ou_fun pf_params] in B.
    inversion B as [|? v1 ? l1 B1 B1']; subst. inversion B1' as [|? v2 ? l2 B2 B2']; subst. inversion B2' as [|? v3 ? l3 B3 B3']; subst. inversion B3'; subst.
    assert (Z1 : v1 = VA (ascalar 2%R)). { destruct B1 as (a & [I|[I|[I|[]]]] & ->); cbn in I; congruence. }
    assert (Z2 : v2 = VA (ascalar 3%R)). { destruct B2 as (a & [I|[I|[I|[]]]] & ->); cbn in I; congruence. }
    assert (Z3 : v3 = VA (ascalar t)). { destruct B3 as (a & [I|[I|[I|[]]]] & ->); cbn in I; congruence. }
    subst. eexists. split; [reflexivity|]. constructor; [split; [cbn; auto|exact (broadcasts_refl [3]%nat)]|]. constructor; [split; [cbn; auto|]|constructor].
    exists [3]%nat, []. split; [reflexivity|constructor].
  - exists [3]%nat, []. split; [reflexivity|constructor].
  - split; [discriminate|]. split; [repeat constructor; apply teqb_R_true; reflexivity|]. repeat constructor; first [apply tltb_R_true; lra|apply teqb_R_true; reflexivity].
  - left. split; [cbn; lia|reflexivity].
  - cbn. lia.
  - eexists. exists s, g', xx. split; [exact E|]. split; [exact S|exact H].
Qed.
(** def f(t, x, v): two equations, without default values *)
Definition pair_fun : pyfun R R := mkFun [("t", None); ("x", None); ("v", None)]%string
  (fun l => match l with [VT t; VA x; VA v] => Ok (RSeq [RDict [("dt", x)]; RDict [("dw", v)]]%string) | _ => Err TypeError end).
Example C66_ex_system : from_function 1%R pair_fun None None false false = Err TypeError /\ from_function 1%R pair_fun (Some 2%nat) None false false = Err TypeError /\
  (exists c, from_function 1%R pair_fun (Some 2%nat) (Some ["dt"; "dw"]%string) false true = Ok c /\ c_q c = 2%nat /\ c_addaxis c = true) /\
  forall t x v, sdes_method pair_fun t [x; v] [] = Ok (RSeq [RDict [("dt", x)]; RDict [("dw", v)]]%string).
Proof.
  split; [apply (C66_untested 1%R pair_fun None None false false 2 "v"%string); auto|]. split; [apply (C66_untested 1%R pair_fun (Some 2%nat) None false false 2 "v"%string); auto|].
  split; [eexists; split; [reflexivity|split; reflexivity]|reflexivity].
Qed.
Example C66_ex_refused : forall t x v, sde_method ou_fun t x [("rho", v)]%string = Err TypeError /\ sde_method ou_fun t x [("x", v)]%string = Err TypeError /\
  sdes_method ou_fun t [x; v; v; v; v] [] = Err TypeError /\ sde_method pair_fun t x [] = Err TypeError.
Proof. intros. repeat split; reflexivity. Qed.
