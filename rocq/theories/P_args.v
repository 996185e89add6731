(** Properties of keyword arguments of SDE classes: C12. *)
From Coq Require Import String List Arith Bool ZArith Lia.
From Verif Require Import Base M_sde M_args S_args L_args.
Import ListNotations.

Section P.
Context {D : Type}.
Variables (hashable : D -> bool) (veq : D -> D -> bool).
Hypothesis veq_refl : forall x, veq x x = true.
Hypothesis veq_sym : forall x y, veq x y = true -> veq y x = true.
Hypothesis veq_trans : forall x y z, veq x y = true -> veq y z = true -> veq x z = true.
Variables (nvars : nat) (ids : list string) (setup : string -> option (sig D)) (init sde more : sig D).
Hypothesis SIGS : sigs_ok nvars ids setup init sde more.
Variable args : dict (option D).
Hypothesis ARGS : NoDup (map fst args).

Theorem C12_accepted_iff :
  (exists r, sde_args hashable veq nvars ids setup init sde more args = Ok r) <->
  accepted nvars ids setup init sde more hashable veq args.
Proof.
  unfold sde_args, accepted. split.
  - intros (r & H). destruct (inspect_args _ _ _ _ _ _ _ _) as [e|] eqn:EI; simpl in H; [|discriminate].
    destruct (consolidate (ex_args e) args) as [a|] eqn:EC; simpl in H; [|discriminate].
    destruct (inspect_inv hashable veq nvars ids setup init sde more SIGS e EI) as (NE & KE & IE & _).
    destruct (proj1 (inspect_spec hashable veq veq_refl veq_sym veq_trans nvars ids setup init sde more SIGS)) as (H1 & H2 & H3);
      [eauto|].
    destruct (proj1 (consolidate_spec (ex_args e) args NE ARGS)) as [H4 H5]; [eauto|].
    split; auto. split; auto. split; auto. split.
    + intros k Hk. apply KE, H4, Hk.
    + intros k d Hd. assert (HK : In k (keys (ex_args e))) by (apply KE; eauto). destruct (H5 k HK) as (v & [HV|[HN HV]]).
      * exists v. left. auto.
      * exists v. right. auto.
  - intros (H1 & H2 & H3 & H4 & H5).
    destruct (proj2 (inspect_spec hashable veq veq_refl veq_sym veq_trans nvars ids setup init sde more SIGS)) as (e & EI); [auto|].
    rewrite EI. simpl. destruct (inspect_inv hashable veq nvars ids setup init sde more SIGS e EI) as (NE & KE & IE & _).
    destruct (proj2 (consolidate_spec (ex_args e) args NE ARGS)) as (a & EC).
    + split; [intros k Hk; apply KE, H4, Hk|]. intros k Hk. destruct (key_lookup _ _ Hk) as (d & ED).
      pose proof (IE _ _ (lookup_In _ _ _ ED)) as HD. destruct (H5 k d HD) as (v & [HV|[HN HV]]); [eauto|].
      exists match d with Some v' => v' | None => v end. right. split; auto. specialize (H3 k _ _ HD HV).
      destruct d; [|destruct H3]. apply lookup_In; auto.
    + rewrite EC. simpl. eauto.
Qed.

(** otherwise TypeError, but for an unknown source *)
Theorem C12_rejected x : sde_args hashable veq nvars ids setup init sde more args = Err x ->
  (x = ValueError /\ exists id, In id ids /\ setup id = None) \/ (x = TypeError /\ forall id, In id ids -> setup id <> None).
Proof.
  unfold sde_args. destruct (inspect_args _ _ _ _ _ _ _ _) as [e|] eqn:EI; simpl.
  - destruct (consolidate (ex_args e) args) eqn:EC; simpl; [discriminate|]. intro H. injection H as <-.
    right. split; [eapply consolidate_err; eauto|].
    apply (proj1 (inspect_spec hashable veq veq_refl veq_sym veq_trans nvars ids setup init sde more SIGS)). eauto.
  - intro H. injection H as ->. apply (inspect_err hashable veq nvars ids setup init sde more x EI).
Qed.

Section Ok.
Variables (e : expected D) (a : dict D).
Hypothesis OK : sde_args hashable veq nvars ids setup init sde more args = Ok (e, a).

(** the values: each parameter has one, the given one if given, else a default *)
Theorem C12_values :
  NoDup (map fst a) /\
  (forall k, In k (map fst a) <-> exists d, declared nvars ids setup init sde more k d) /\
  (forall k v, In (k, v) a -> value_of nvars ids setup init sde more args k v) /\
  (forall k v, In (k, Some v) args -> In (k, v) a).
Proof using ARGS OK SIGS.
  unfold sde_args in OK. destruct (inspect_args _ _ _ _ _ _ _ _) as [e'|] eqn:EI; simpl in OK; [|discriminate].
  destruct (consolidate (ex_args e') args) as [a'|] eqn:EC; simpl in OK; [|discriminate]. injection OK as -> ->.
  destruct (inspect_inv hashable veq nvars ids setup init sde more SIGS e EI) as (NE & KE & IE & _).
  destruct (consolidate_inv (ex_args e) args a NE ARGS EC) as (H1 & H2 & H3).
  split; auto. split; [intro k; rewrite <- KE; apply H2|]. split.
  - intros k v Hv. apply H3 in Hv. destruct Hv as [Hv|[HN Hv]]; [left; auto|right; split; auto].
  - intros k v Hv. apply H3. auto.
Qed.

(** Then, the values of the parameters of init, and after that those of sde, are converted to arrays *)
Variables (fi fs : D -> res D).
Definition converted (f : D -> res D) (s : sig D) (k : string) (v v' : D) : Prop :=
  (In k (map fst s) -> f v = Ok v') /\ (~ In k (map fst s) -> v' = v).
Theorem C12_prepared b : prepare fi fs e a = Ok b ->
  NoDup (map fst b) /\ (forall k, In k (map fst b) <-> In k (map fst a)) /\
  forall k v2, In (k, v2) b <-> exists v v1, In (k, v) a /\ converted fi (skipn 2 init) k v v1 /\
                                  converted fs (skipn (1 + nvars) sde) k v1 v2.
Proof using ARGS OK SIGS.
  destruct C12_values as (NA & KA & _ & _). intro H.
  unfold sde_args in OK. destruct (inspect_args _ _ _ _ _ _ _ _) as [e'|] eqn:EI; simpl in OK; [|discriminate].
  destruct (consolidate (ex_args e') args) as [a'|] eqn:EC; simpl in OK; [|discriminate]. injection OK as -> ->.
  destruct (inspect_inv hashable veq nvars ids setup init sde more SIGS e EI) as (NE & KE & IE & HS & HI & HD & HM).
  unfold prepare in H. destruct (prep fi _ a) as [a1|] eqn:E1 in H; simpl in H; [|discriminate].
  destruct (prep_spec fi _ a a1 NA E1) as (N1 & K1 & I1). destruct (prep_spec fs _ a1 b N1 H) as (N2 & K2 & I2).
  split; auto. split; [intro k; unfold keys in *; rewrite K2; apply K1|].
  assert (CV : forall (f : D -> res D) s k v v', (if mem_str k (keys s) then f v = Ok v' else v' = v) <-> converted f s k v v').
  { intros f s k v v'. unfold converted. destruct (mem_str k (keys s)) eqn:EM.
    - apply mem_str_In in EM. unfold keys in EM. intuition.
    - apply not_true_iff_false in EM. rewrite mem_str_In in EM. unfold keys in EM. intuition. }
  intros k v2. rewrite I2. rewrite HD. split.
  - intros (v1 & H1 & H2). apply I1 in H1. rewrite HI in H1. destruct H1 as (v & H0 & H1).
    exists v, v1. split; auto. split; [apply CV; auto|apply CV; auto].
  - intros (v & v1 & H0 & H1 & H2). exists v1. split; [|apply CV; auto]. apply I1. rewrite HI. exists v. split; auto. apply CV; auto.
Qed.
Theorem C12_prepare_fails x : prepare fi fs e a = Err x -> exists v, fi v = Err x \/ fs v = Err x.
Proof using.
  unfold prepare. destruct (prep fi _ a) as [a1|] eqn:E1; simpl; intro H.
  - apply prep_err in H. destruct H as (k & v & _ & _ & H). eauto.
  - injection H as ->. apply prep_err in E1. destruct E1 as (k & v & _ & _ & H). eauto.
Qed.

(** each function receives exactly its own parameters *)
Theorem C12_dispatch b : prepare fi fs e a = Ok b ->
  let c := dispatch e b in
  receives (skipn 2 init) b (c_init c) /\ receives (skipn (1 + nvars) sde) b (c_sde c) /\ receives more b (c_more c) /\
  Forall2 (fun id p => fst p = id /\ exists s, setup id = Some s /\ receives s b (snd p)) ids (c_src c).
Proof using ARGS OK SIGS.
  intros HB. destruct (C12_prepared b HB) as (NB & KB & _). destruct C12_values as (NA & KA & _ & _).
  unfold sde_args in OK. destruct (inspect_args _ _ _ _ _ _ _ _) as [e'|] eqn:EI; simpl in OK; [|discriminate].
  destruct (consolidate (ex_args e') args) as [a'|] eqn:EC; simpl in OK; [|discriminate]. injection OK as -> ->.
  destruct (inspect_inv hashable veq nvars ids setup init sde more SIGS e EI) as (NE & KE & IE & HS & HI & HD & HM).
  assert (G : forall s, declares nvars ids setup init sde more s -> receives s b (get_args (keys s) b)).
  { intros s Hs. split; [apply get_args_nodup; auto|]. split.
    - intro k. unfold keys. rewrite (get_args_keys (map fst s) b k). unfold keys. split; [tauto|]. intro Hk. split; auto.
      apply KB, KA. destruct (key_lookup _ _ Hk) as (d & E). exists d, s. split; auto. apply lookup_In; auto.
    - intros k v Hv. apply get_args_In in Hv. tauto. }
  unfold dispatch. simpl. rewrite HI, HD, HM.
  split; [apply G; constructor|]. split; [apply G; constructor|]. split; [apply G; constructor|].
  assert (G2 : forall id s, In id ids -> setup id = Some s -> receives s b (get_args (keys s) b)).
  { intros. apply G. eapply dec_src; eauto. }
  clear -HS G2. induction HS as [|id p l l' (E1 & s & E2 & E3) F IH]; simpl; constructor.
  - simpl. split; auto. exists s. split; auto. rewrite E3. apply (G2 id); simpl; auto.
  - apply IH. intros. apply (G2 id0); simpl; auto.
Qed.
End Ok.

(** systems of equations: one more check *)
Theorem C12_systems q : sdes_inspect_args hashable veq q ids setup init sde more =
  match q with 0 => Err ValueError | _ => inspect_args hashable veq q ids setup init sde more end.
Proof using. destruct q; reflexivity. Qed.
End P.
Print Assumptions C12_accepted_iff.
Print Assumptions C12_rejected.
Print Assumptions C12_values.
Print Assumptions C12_prepared.
Print Assumptions C12_prepare_fails.
Print Assumptions C12_dispatch.
Print Assumptions C12_systems.

(** *** Examples: ornstein_uhlenbeck_process, with its parameters (values are integers) *)
Section Ex.
Open Scope string_scope.
Open Scope Z_scope.
Definition ex_setup (id : string) : option (sig Z) :=
  if String.eqb id "dt" then Some []
  else if String.eqb id "dw" then Some [("dw", Some 100); ("corr", Some 100); ("rho", Some 100)]
  else None.
Definition ex_init : sig Z := [("t", None); ("out_x", None); ("x0", Some 1)].
Definition ex_sde : sig Z := [("t", None); ("x", None); ("theta", Some 0); ("k", None); ("sigma", Some 1)].
Definition ex_call ids args := sde_args (fun _ => true) Z.eqb 1 ids ex_setup ex_init ex_sde [("theta", Some 0)] args.
Definition res_args {A} (r : res (A * dict Z)) : res (dict Z) := match r with Ok (_, a) => Ok a | Err e => Err e end.
Example C12_ex_ok : res_args (ex_call ["dt"; "dw"] [("k", Some 5); ("rho", Some 7)])
  = Ok [("dw", 100); ("corr", 100); ("rho", 7); ("x0", 1); ("theta", 0); ("k", 5); ("sigma", 1)].
Proof. vm_compute. reflexivity. Qed.
Example C12_ex_missing : ex_call ["dt"; "dw"] [("rho", Some 7)] = Err TypeError.
Proof. vm_compute. reflexivity. Qed.
Example C12_ex_unexpected : ex_call ["dt"; "dw"] [("k", Some 5); ("t", Some 7)] = Err TypeError.
Proof. vm_compute. reflexivity. Qed.
Example C12_ex_source : ex_call ["dt"; "dz"] [("k", Some 5)] = Err ValueError.
Proof. vm_compute. reflexivity. Qed.
(** a parameter declared both with and without a default is rejected, even if given *)
Example C12_ex_repeated : sde_args (fun _ => true) Z.eqb 1 ["dt"] ex_setup ex_init ex_sde [("theta", None)]
    [("k", Some 5); ("theta", Some 3)] = Err TypeError.
Proof. vm_compute. reflexivity. Qed.
Example C12_ex_sigs : sigs_ok 1 ["dt"; "dw"] ex_setup ex_init ex_sde [("theta", Some 0)].
Proof.
  intros s [id s' H E| | |]; simpl in *; [|repeat constructor; simpl; intuition discriminate..].
  destruct H as [<-|[<-|[]]]; injection E as <-; repeat constructor; simpl; intuition discriminate.
Qed.
(** sde gets theta, k and sigma; the source dw its own three *)
Example C12_ex_dispatch : match ex_call ["dt"; "dw"] [("k", Some 5); ("rho", Some 7)] with
  | Ok (e, a) => match prepare (fun x => Ok (x + 1)) (fun x => Ok (10 * x)) e a with
    | Ok b => dispatch e b = mkCalls [("dt", []); ("dw", [("dw", 100); ("corr", 100); ("rho", 7)])]
                               [("x0", 2)] [("theta", 0); ("k", 50); ("sigma", 10)] [("theta", 0)]
    | Err _ => False end
  | Err _ => False end.
Proof. vm_compute. reflexivity. Qed.
End Ex.
