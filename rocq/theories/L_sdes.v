(** Lemmas on systems of equations. *)
From Coq Require Import String List Arith Bool ZArith Lia Reals Lra Permutation.
From Verif Require Import Base BaseOrd BaseNum BaseArr M_paths S_paths S_run L_ord
  M_sde S_sde S_sdes L_sde L_sde2 L_sde3 L_sde4 L_pack L_sim.
Import ListNotations.

Lemma bget_aeq {V} (a b : arr V) w ix : aeq a b -> can (shp a) w = true -> inb w ix -> bget a ix = bget b ix.
Proof. intros [ES ED] C HI. unfold bget. rewrite <- ES. apply ED. eapply bidx_inb; eauto. Qed.

Section G.
Context {T : Type} {TO : TOrd T} {V : Type} {NV : Num V} {Wd I : Type}.
Variables (q : nat) (addaxis : bool) (vshape : list nat) (paths : nat) (set_order : list string -> list string)
  (ids : list string) (args : dict (param T V)) (sde : T -> list (arr V) -> dict (arr V) -> res (sdeval V)).
Let vp := vshape ++ [paths].
Let w := sdes_wshape q addaxis vshape ++ [paths].
Hypothesis PK : packable addaxis vshape.
Hypothesis HQ : 0 < q.

Definition coef_or_zero (id : string) (A : dict (arr V)) : arr V :=
  match lookup id A with Some c => c | None => ascalar nzero end.

Lemma mapr_check (l : list (sdeval V)) : forall As, mapr (check_dict ids) l = Ok As ->
  l = map (fun d => RDict d) As /\ Forall (fun d => incl (keys d) ids) As.
Proof.
  induction l as [|v l IH]; intros As H; cbn [mapr] in H.
  - injection H as <-. split; constructor.
  - destruct (check_dict ids v) as [d|] eqn:E; cbn [rbind] in H; [|discriminate].
    destruct (mapr (check_dict ids) l) as [ds|]; cbn [rbind] in H; [|discriminate].
    injection H as <-. apply check_dict_ok in E. destruct E as [-> E].
    destruct (IH ds eq_refl) as [-> F]. split; [reflexivity|constructor; auto].
Qed.

Lemma sdes_A_inv t X A : shp X = w ->
  sdes_A q addaxis vshape paths set_order ids args sde t X = Ok A ->
  exists xs As,
    (length xs = q /\ forall k y, nth_error xs k = Some y ->
        shp y = vp /\ forall ix, inb vp ix -> dat y ix = dat X (comp addaxis vshape k ix)) /\
    unpack q addaxis vshape X = Ok xs /\
    sde t xs (map (fun '(k, z) => (k, peval t z)) args) = Ok (RSeq (map (fun d => RDict d) As)) /\
    length As = q /\ Forall (fun d => incl (keys d) ids) As /\
    keys A = set_order (union_keys As) /\
    forall id P, In (id, P) A -> shp P = w /\
      (forall k Ak, nth_error As k = Some Ak -> can (shp (coef_or_zero id Ak)) vp = true /\
         forall ix, inb vp ix -> dat P (comp addaxis vshape k ix) = bget (coef_or_zero id Ak) ix).
Proof.
  intros SX H. unfold sdes_A in H.
  destruct (unpack_ok addaxis vshape paths PK q X SX) as (xs & EU & LX & HX).
  rewrite EU in H. cbn [rbind] in H.
  destruct (sde t xs _) as [v|] eqn:ES; cbn [rbind] in H; [|discriminate].
  destruct (check_seq q ids v) as [As|] eqn:EC; cbn [rbind] in H; [|discriminate].
  unfold check_seq in EC. destruct v as [|l|]; try discriminate.
  destruct (Nat.eqb_spec (length l) q) as [LL|]; [|discriminate].
  apply mapr_check in EC. destruct EC as [-> F]. rewrite map_length in LL.
  exists xs, As. split; [auto|]. split; [exact EU|]. split; [exact ES|]. split; [exact LL|]. split; [exact F|].
  apply mapr_ok in H.
  assert (G : keys A = set_order (union_keys As) /\ forall id P, In (id, P) A ->
     pack addaxis vshape paths (map (coef_or_zero id) As) = Ok P).
  { clear -H. induction H as [|id p ids A E F IH]; [split; [reflexivity|intros ? ? []]|].
    destruct IH as [IH1 IH2].
    change (map (fun a => match lookup id a with Some c => c | None => ascalar nzero end) As)
      with (map (coef_or_zero id) As) in E.
    destruct (pack addaxis vshape paths (map (coef_or_zero id) As)) as [P|] eqn:EP; cbn [rbind] in E; [|discriminate].
    injection E as <-. split; [simpl; congruence|]. intros id' P' [HI|HI]; [|auto].
    injection HI as <- <-. exact EP. }
  destruct G as [G1 G2]. split; auto. intros id P HI. specialize (G2 id P HI).
  destruct (pack_inv addaxis vshape paths _ _ G2) as [NE FC].
  destruct (pack_ok addaxis vshape paths PK _ NE FC) as (P' & E' & SP & HP).
  rewrite E' in G2. injection G2 as ->. rewrite map_length, LL in SP. split; [exact SP|].
  intros k Ak EK. split.
  - rewrite Forall_forall in FC. apply FC. apply in_map. eapply nth_error_In; eauto.
  - intros ix HX'. apply HP; auto. rewrite nth_error_map, EK. reflexivity.
Qed.

Lemma union_keys_NoDup (As : list (dict (arr V))) : NoDup (union_keys As).
Proof. apply NoDup_nodup. Qed.
Lemma union_keys_In (As : list (dict (arr V))) id : In id (union_keys As) <-> exists d, In d As /\ In id (keys d).
Proof.
  unfold union_keys. rewrite nodup_In, in_concat. split.
  - intros (l & HL & HI). apply in_map_iff in HL. destruct HL as (d & <- & HD). eauto.
  - intros (d & HD & HI). exists (keys d). split; auto. apply in_map; auto.
Qed.
End G.

Section Value.
Context {T : Type} {TO : TOrd T} {V : Type} {NV : Num V} {Wd I : Type}.
Variable tsub : T -> T -> V.
Variable ig : integ T V Wd I.

Lemma euler_next_value wd t t' x wd' x' : euler_next tsub ig wd t t' x = Ok (wd', x') ->
  exists A dz, ig_A ig t (mkArr (ig_w ig) x) = Ok A /\ dZ ig wd t (tsub t' t) = Ok (wd', dz) /\
    forall ix, inb (ig_w ig) ix -> exists d, increment A dz ix d /\ x' ix = nadd (x ix) d.
Proof.
  intro H. unfold euler_next in H.
  destruct (ig_A ig t _) as [A|] eqn:EA; cbn [rbind] in H; [|discriminate].
  destruct (dZ ig wd t _) as [[wd1 dz]|] eqn:ED; cbn [rbind] in H; [|discriminate].
  destruct (euler_sum _ A dz) as [sm|] eqn:ES; cbn [rbind] in H; [|discriminate].
  destruct (aop nadd _ sm) as [r|] eqn:ER; cbn [rbind] in H; [|discriminate].
  destruct (assign _ r) as [y|] eqn:EY; cbn [rbind] in H; [|discriminate].
  injection H as <- <-. exists A, dz. split; auto. split; auto. intros ix HI.
  destruct (euler_sum_ok A _ _ _ ES ix) as (terms & F & E). exists (bget sm ix). split.
  - exists terms. split; auto.
  - apply assign_ok in EY. destruct EY as [-> _]. rewrite (aop_get _ _ _ _ ix ER), bget_self by auto. reflexivity.
Qed.
End Value.

(** *** Systems over the real numbers *)
Section R.
Context {Wd I : Type}.
Open Scope R_scope.
Variables (q : nat) (addaxis : bool) (vshape : list nat) (paths : nat) (set_order : list string -> list string)
  (args : dict (param R R)) (sde : R -> list (arr R) -> dict (arr R) -> res (sdeval R)).
Variable ig : integ R R Wd I.
Variable tsub : R -> R -> R.
Let vp := (vshape ++ [paths])%list.
Let w := (sdes_wshape q addaxis vshape ++ [paths])%list.
Hypothesis PK : packable addaxis vshape.
Hypothesis PERM : forall l, Permutation (set_order l) l.
Hypothesis EW : ig_w ig = w.
Hypothesis EA : ig_A ig = sdes_A q addaxis vshape paths set_order (ig_ids ig) args sde.
Hypothesis ND : NoDup (ig_ids ig).

Lemma coef_zero_get id A ix : bget (coef_or_zero (V := R) id A) ix = coef A id ix.
Proof. unfold coef_or_zero, coef. destruct (lookup id A); reflexivity. Qed.

Lemma system_value wd t t' x wd' x' : euler_next tsub ig wd t t' x = Ok (wd', x') ->
  exists (A : dict (arr R)) dz xs As,
    dZ ig wd t (tsub t' t) = Ok (wd', dz) /\
    (length xs = q /\ forall k y, nth_error xs k = Some y ->
        shp y = vp /\ forall ix, inb vp ix -> dat y ix = x (comp addaxis vshape k ix)) /\
    sde t xs (map (fun '(k, z) => (k, peval t z)) args) = Ok (RSeq (map (fun d => RDict d) As)) /\
    length As = q /\ Forall (fun d => incl (keys d) (ig_ids ig)) As /\
    (forall id, In id (keys A) <-> exists d, In d As /\ In id (keys d)) /\
    (forall id k Ak, In id (keys A) -> nth_error As k = Some Ak -> can (shp (coef_or_zero id Ak)) vp = true) /\
    (forall k Ak, nth_error As k = Some Ak -> forall ix, inb vp ix ->
      x' (comp addaxis vshape k ix) =
      x (comp addaxis vshape k ix) +
       Rlsum (map (fun '(id, z) => coef Ak id ix * bget z (comp addaxis vshape k ix)) dz)).
Proof.
  intro H. destruct (euler_next_value _ _ _ _ _ _ _ _ H) as (A & zs & HA & DR & HS).
  rewrite EA, EW in HA.
  destruct (sdes_A_inv q addaxis vshape paths set_order (ig_ids ig) args sde PK t (mkArr w x) _ eq_refl HA)
    as (xs & As & [LX HX] & EU & ES & LA & FA & KA & HP).
  assert (NZ : NoDup (keys zs)).
  { apply eval_sources_ok in DR. destruct DR as [_ ->]. apply sorted_nodup, ssort_sorted; auto. }
  assert (NA : NoDup (keys A)).
  { rewrite KA. eapply Permutation_NoDup; [apply Permutation_sym, PERM|]. apply union_keys_NoDup. }
  assert (KA2 : forall id, In id (keys A) <-> exists d, In d As /\ In id (keys d)).
  { intro id. rewrite KA, <- union_keys_In. split; apply Permutation_in; [|apply Permutation_sym]; apply PERM. }
  exists A, zs, xs, As. split; [auto|]. split; [auto|]. split; [auto|]. split; [auto|]. split; [auto|]. split; [exact KA2|].
  split.
  { intros id k Ak HK EK. destruct (lookup_some _ _ HK) as (P & EP). apply lookup_In in EP.
    destruct (HP id P EP) as [_ HPk]. apply (HPk k Ak EK). }
  intros k Ak EK ix HIX. rewrite EW in HS.
  assert (Hk : (k < q)%nat) by (rewrite <- LA; apply nth_error_Some; congruence).
  destruct (HS _ (comp_inb addaxis vshape paths PK q k ix Hk HIX)) as (d & INC & ->).
  rewrite (increment_all A zs _ d NA NZ INC). cbn [nadd Num_R]. f_equal. f_equal. apply map_ext. intros [id z]. f_equal.
  unfold coef at 1. destruct (lookup id A) as [P|] eqn:EL.
  - apply lookup_In in EL. destruct (HP id P EL) as [SP HPk]. destruct (HPk k Ak EK) as [_ HD].
    rewrite bget_self by (rewrite SP; apply comp_inb; auto). rewrite HD by auto. apply coef_zero_get.
  - unfold coef. rewrite lookup_none; auto. intro HK.
    assert (IU : In id (keys A)). { apply KA2. exists Ak. split; auto. eapply nth_error_In; eauto. }
    destruct (lookup_some _ _ IU) as (c & EC). congruence.
Qed.

Lemma system_next_step wd t t' x wd' x' : euler_next tsub ig wd t t' x = Ok (wd', x') ->
  system_step q addaxis vshape paths args sde tsub ig wd t t' x wd' x'.
Proof.
  intro H. destruct (system_value _ _ _ _ _ _ H) as (A & dz & xs & As & HD & [LX HX] & ES & LA & FA & _ & _ & VAL).
  apply eval_sources_ok in HD. destruct HD as [DR KD].
  exists (ssort (ig_ids ig)), dz, xs, As.
  split; [split; [apply ssort_sorted; auto|apply ssort_In]|]. repeat (split; [auto; fail|]).
  split; [|exact VAL]. rewrite KD. apply sorted_nodup, ssort_sorted; auto.
Qed.
End R.

(** *** An equation that does not refer to the others *)
Section Unc.
Context {Wd I I1 : Type}.
Open Scope R_scope.
Variables (q : nat) (addaxis : bool) (vshape : list nat) (paths : nat) (set_order : list string -> list string)
  (args : dict (param R R)) (sde : R -> list (arr R) -> dict (arr R) -> res (sdeval R)).
Variables (ig : integ R R Wd I) (ig1 : integ R R Wd I1).
Variable tsub : R -> R -> R.
Variables (i : nat) (sde1 : R -> arr R -> dict (arr R) -> res (sdeval R)).
Let vp := (vshape ++ [paths])%list.
Let w := (sdes_wshape q addaxis vshape ++ [paths])%list.
Notation phi := (comp addaxis vshape i).
Hypothesis PK : packable addaxis vshape.
Hypothesis PERM : forall l, Permutation (set_order l) l.
Hypothesis Hi : (i < q)%nat.
Hypothesis EW : ig_w ig = w.
Hypothesis EA : ig_A ig = sdes_A q addaxis vshape paths set_order (ig_ids ig) args sde.
Hypothesis ND : NoDup (ig_ids ig).
Hypothesis EI1 : ig_ids ig1 = ig_ids ig.
Hypothesis EW1 : ig_w ig1 = vp.
Hypothesis EA1 : ig_A ig1 = sde_A (ig_ids ig) args sde1.
Hypothesis HSRC : forall id wd t dt wd' z, In id (ig_ids ig) -> ig_src ig id wd t dt = Ok (wd', z) ->
  exists z1, ig_src ig1 id wd t dt = Ok (wd', z1) /\ can (shp z1) vp = true /\
             forall ix, inb vp ix -> bget z1 ix = bget z (phi ix).
Hypothesis UNC : uncoupled i args sde sde1.

Lemma uncoupled_next wd t t' X x wd' X' : (forall ix, inb vp ix -> x ix = X (phi ix)) ->
  euler_next tsub ig wd t t' X = Ok (wd', X') ->
  exists x', euler_next tsub ig1 wd t t' x = Ok (wd', x') /\ forall ix, inb vp ix -> x' ix = X' (phi ix).
Proof.
  intros HX H.
  destruct (system_value q addaxis vshape paths set_order args sde ig tsub PK PERM EW EA ND _ _ _ _ _ _ H)
    as (A & dz & xs & As & HD & [LX HXS] & ES & LA & FA & KA & HC & VAL).
  destruct (nth_error xs i) as [xi|] eqn:Exi; [|apply nth_error_None in Exi; lia].
  destruct (nth_error As i) as [Ai|] eqn:EAi; [|apply nth_error_None in EAi; lia].
  destruct (HXS i xi Exi) as [SXi DXi].
  destruct (UNC t xs As xi Ai (mkArr vp x) ES Exi EAi) as (NDi & A1 & EA1' & DE).
  { split; [exact SXi|]. intros ix HI. rewrite SXi in HI. simpl. rewrite DXi by auto. symmetry. apply HX; auto. }
  assert (KE : keys A1 = keys Ai).
  { clear -DE. induction DE as [|? ? ? ? [E _] F IH]; simpl; congruence. }
  assert (INCL : incl (keys Ai) (ig_ids ig)).
  { rewrite Forall_forall in FA. apply FA. eapply nth_error_In; eauto. }
  (* coefficients fit *)
  assert (CAN : forall id c, In (id, c) Ai -> can (shp c) vp = true).
  { intros id c HI.
    assert (IU : In id (keys A)).
    { apply KA. exists Ai. split; [eapply nth_error_In; eauto|]. apply (in_map fst) in HI. exact HI. }
    specialize (HC id i Ai IU EAi). unfold coef_or_zero in HC. rewrite (lookup_uniq _ _ _ NDi HI) in HC. exact HC. }
  assert (FC1 : Forall (fun '(id, c) => In id (ig_ids ig) /\ can (shp c) vp = true) A1).
  { apply Forall_forall. intros [id c] HI. split.
    - apply INCL. rewrite <- KE. apply (in_map fst) in HI. exact HI.
    - clear -DE HI CAN. induction DE as [|[k a] [k1 a1] l l1 [E1 [E2 E3]] F IH]; [destruct HI|].
      simpl in *. destruct HI as [HI|HI].
      + injection HI as <- <-. rewrite <- E2. eapply CAN. left; reflexivity.
      + apply IH; auto. intros id' c' H. eapply CAN. right; eauto. }
  assert (HA1 : ig_A ig1 t (mkArr (ig_w ig1) x) = Ok A1).
  { rewrite EA1, EW1. unfold sde_A. rewrite EA1'. cbn [rbind]. apply check_dict_ok. split; auto. rewrite KE; auto. }
  (* sources *)
  unfold dZ in HD.
  destruct (eval_sources_agree ig ig1 phi) with (ids := ssort (ig_ids ig)) (wd := wd) (t := t) (dt := tsub t' t)
    (wd' := wd') (d1 := dz) as (dz1 & ED1 & DG); auto.
  { intros id wd0 t0 dt wd1 z HI HS. destruct (HSRC id wd0 t0 dt wd1 z HI HS) as (z1 & E1 & C1 & G1).
    exists z1. split; auto. unfold agree. rewrite EW1. auto. }
  { intros k. apply ssort_In. }
  assert (KD : keys dz1 = ssort (ig_ids ig)).
  { rewrite <- (dagree_keys _ _ _ _ DG). apply eval_sources_ok in HD. apply HD. }
  assert (TOT : exists x', euler_next tsub ig1 wd t t' x = Ok (wd', x')).
  { unfold euler_next. rewrite HA1. cbn [rbind]. unfold dZ. rewrite EI1, ED1. cbn [rbind].
    destruct (euler_sum_total ig1 dz1 A1) with (acc := ascalar (V := R) nzero) as (sm & -> & CS).
    - clear -DG. induction DG as [|[k a] [k1 a1] l l1 [_ [C _]] F IH]; constructor; auto.
    - rewrite EW1. eapply Forall_impl; [|exact FC1]. intros [id c] [H1 H2]. split; auto. rewrite KD. apply ssort_In; auto.
    - apply can_nil.
    - cbn [rbind]. destruct (aop_ok nadd (mkArr (ig_w ig1) x) sm (ig_w ig1) (can_refl _) CS) as (r & -> & CR). cbn [rbind].
      rewrite assign_can by auto. cbn [rbind]. eauto. }
  destruct TOT as (x' & EX). exists x'. split; auto. intros ix HI.
  (* values *)
  destruct (euler_next_value _ _ _ _ _ _ _ _ EX) as (A1' & dz1' & HA1' & HD1' & HV1).
  rewrite HA1 in HA1'. injection HA1' as <-. unfold dZ in HD1'. rewrite EI1, ED1 in HD1'. injection HD1' as <-.
  rewrite EW1 in HV1. destruct (HV1 ix HI) as (d1 & INC1 & ->).
  rewrite (increment_all A1 dz1 ix d1); auto; [|rewrite KE; auto|rewrite KD; apply sorted_nodup, ssort_sorted; auto].
  rewrite (VAL i Ai EAi ix HI). cbn [nadd Num_R]. rewrite HX by auto. f_equal. f_equal.
  assert (CO : forall id, coef A1 id ix = coef Ai id ix).
  { intro id. unfold coef. clear -DE CAN HI.
    induction DE as [|[k a] [k1 a1] l l1 [E1 E2] F IH]; [reflexivity|]. simpl in *. subst k1.
    destruct (String.eqb id k).
    - symmetry. eapply bget_aeq; eauto.
    - apply IH. intros id' c' H. eapply CAN. right; eauto. }
  clear -DG CO EW1 HI. induction DG as [|[k a] [k1 a1] l l1 [E1 E2] F IH]; simpl; [reflexivity|].
  simpl in E1, E2. subst k1. rewrite IH. f_equal. rewrite CO. f_equal. apply E2. rewrite EW1. auto.
Qed.
End Unc.
