(** Lemmas on the montecarlo class: sequences of updates. *)
From Coq Require Import String List Arith Bool Lia ZArith Reals Lra.
From Verif Require Import Base BaseNum BaseArr BaseNd M_mc S_mc L_nd L_mc L_mc2.
Import ListNotations.
Local Open Scope R_scope.

Section Updates.
Variable auto : string -> list R -> option (R * R) -> res nat.

Definition hist_part (v : list nat) (D : list nat -> list R) (E : option (list nat -> list R)) (a : mc R) : Prop :=
  match E with None => mc_bins a = BNone | Some E => hist_inv v D E a end.
Definition inv (use : string) (v : list nat) (N : nat) (D : list nat -> list R) (E : option (list nat -> list R)) (a : mc R) : Prop :=
  mc_use a = use /\ moments_inv v N D a /\ hist_part v D E a.

Lemma moments_inv_eq v N D a a' : mc_mean a' = mc_mean a -> mc_moments a' = mc_moments a -> mc_center a' = mc_center a ->
  moments_inv v N D a -> moments_inv v N D a'.
Proof. unfold moments_inv. intros -> -> ->. auto. Qed.
Lemma moments_inv_ext v N D D' a : (forall ix, inb v ix -> D ix = D' ix) -> moments_inv v N D a -> moments_inv v N D' a.
Proof.
  intros HE (c & mean & m1 & m2 & m3 & m4 & H). exists c, mean, m1, m2, m3, m4. destruct H as (? & ? & ? & ? & ? & ? & ? & ? & ? & H).
  do 9 (split; [auto|]). intros ix Hix. rewrite <- (HE ix Hix). auto.
Qed.
Lemma hist_part_ext v D D' E a : (forall ix, inb v ix -> D ix = D' ix) -> hist_part v D E a -> hist_part v D' E a.
Proof.
  intros HE. destruct E as [E|]; simpl; auto. intros (b & c & o & H). exists b, c, o. destruct H as (? & ? & ? & ? & ? & ? & H).
  do 6 (split; [auto|]). intros ix Hix. rewrite <- (HE ix Hix). auto.
Qed.

Lemma update_next use v N D E a x : (0 < N)%nat -> inv use v N D E a -> sample_ok use v x ->
  exists m a', mc_update auto N a (fst x) (snd x) = ((N + m, a')%nat, Ok tt) /\ (0 < m)%nat /\
    (forall ix, inb v ix -> List.length (seen use (values x ix)) = m) /\
    inv use v (N + m) (fun ix => D ix ++ seen use (values x ix))%list E a'.
Proof.
  intros HN (HU & HM & HH) HS. destruct (mc_sample_ok use v x HS) as (y & m & EY & SY & Pm & HR).
  unfold mc_update. rewrite HU, EY. destruct (Nat.eqb_spec N 0); [lia|]. unfold mc_update_moments, mc_init_moments.
  destruct (moments_step_ok v N m D (fun ix => seen use (values x ix)) a y SY Pm) as (a1 & E1 & M1 & B1 & R1 & U1 & C1 & O1 & X1); auto.
  { intros ix Hix. apply HR; auto. }
  rewrite E1. rewrite SY, last_snoc. exists m.
  assert (HL : forall ix, inb v ix -> List.length (D ix) = N).
  { destruct HM as (? & ? & ? & ? & ? & ? & _ & _ & _ & _ & _ & _ & _ & _ & _ & H). intros ix Hix. apply H; auto. }
  destruct E as [E|]; simpl in HH.
  - destruct (next_histogram auto v (N + m) N m D (fun ix => seen use (values x ix)) E a1 y SY) as (a2 & E2 & H2 & U2 & A2 & A3 & A4); auto.
    { intros ix Hix. apply HR; auto. } { eauto. }
    { destruct HH as (b & c & o & H). exists b, c, o. rewrite B1, C1, O1. exact H. }
    rewrite E2. exists a2. split; [reflexivity|]. split; [auto|]. split; [intros; apply HR; auto|]. split; [congruence|]. split; [|exact H2].
    eapply moments_inv_eq; eauto.
  - unfold mc_update_histogram. rewrite B1, HH. exists a1. split; [reflexivity|]. split; [auto|]. split; [intros; apply HR; auto|]. split; [congruence|]. split; [auto|]. simpl. congruence.
Qed.

Lemma first_moments use v a x : mc_use a = use -> sample_ok use v x -> exists y m a1, mc_sample use (fst x) (snd x) = Ok y /\ shp y = (v ++ [m])%list /\
  (0 < m)%nat /\ (forall ix, inb v ix -> row y ix = seen use (values x ix) /\ List.length (seen use (values x ix)) = m) /\
  mc_update_moments true 0 y a = (a1, Ok tt) /\ moments_inv v m (fun ix => seen use (values x ix)) a1 /\
  mc_bins a1 = mc_bins a /\ mc_range a1 = mc_range a /\ mc_use a1 = mc_use a /\ mc_counts a1 = mc_counts a /\ mc_outside a1 = mc_outside a.
Proof.
  intros HU HS. destruct (mc_sample_ok use v x HS) as (y & m & EY & SY & Pm & HR).
  destruct (moments_step_ok v 0 m (fun _ => []) (fun ix => seen use (values x ix)) (mc_init_moments true y a) y SY Pm) as (a1 & E1 & M1 & B1 & R1 & U1 & C1 & O1 & X1).
  { intros ix Hix. apply HR; auto. } { eapply init_inv; eauto. }
  exists y, m, a1. do 4 (split; [auto|]). unfold mc_update_moments. rewrite E1. split; [reflexivity|]. split; [exact M1|]. repeat split; auto.
Qed.
Lemma update_first_ok use v a x args r : mc_use a = use -> sample_ok use v x -> first_args a v args r ->
  (forall ix, inb v ix -> exists c e, np_histogram auto (seen use (values x ix)) (args ix) r = Ok (c, e)) ->
  exists m a' E, mc_update auto 0 a (fst x) (snd x) = ((m, a'), Ok tt) /\ (0 < m)%nat /\
    (forall ix, inb v ix -> List.length (seen use (values x ix)) = m) /\
    inv use v m (fun ix => seen use (values x ix)) (Some E) a' /\
    (forall ix, inb v ix -> np_histogram auto (seen use (values x ix)) (args ix) r = Ok (bin_counts (E ix) (seen use (values x ix)), E ix)).
Proof.
  intros HU HS HA HO. destruct (first_moments use v a x HU HS) as (y & m & a1 & EY & SY & Pm & HR & E1 & M1 & B1 & R1 & U1 & _).
  unfold mc_update. rewrite HU, EY. simpl Nat.eqb. cbv iota. rewrite E1.
  destruct (first_histogram auto v m m (fun ix => seen use (values x ix)) a1 y args r SY) as (a2 & E & E2 & H2 & HE & U2 & A2 & A3 & A4); auto.
  { intros; apply HR; auto. } { eauto. } { unfold first_args in *. rewrite B1, R1. exact HA. }
  rewrite E2, SY, last_snoc. exists m, a2, E. split; [reflexivity|]. split; [auto|]. split; [intros; apply HR; auto|]. split; [|auto].
  split; [congruence|]. split; [eapply moments_inv_eq; eauto|]. exact H2.
Qed.
Lemma update_first_none use v a x : mc_use a = use -> sample_ok use v x -> mc_bins a = BNone ->
  exists m a', mc_update auto 0 a (fst x) (snd x) = ((m, a'), Ok tt) /\ (0 < m)%nat /\
    (forall ix, inb v ix -> List.length (seen use (values x ix)) = m) /\
    inv use v m (fun ix => seen use (values x ix)) None a'.
Proof.
  intros HU HS HA. destruct (first_moments use v a x HU HS) as (y & m & a1 & EY & SY & Pm & HR & E1 & M1 & B1 & R1 & U1 & _).
  unfold mc_update. rewrite HU, EY. simpl Nat.eqb. cbv iota. rewrite E1. unfold mc_update_histogram. rewrite B1, HA, SY, last_snoc.
  exists m, a1. split; [reflexivity|]. split; [auto|]. split; [intros; apply HR; auto|]. split; [congruence|]. split; [auto|]. simpl. congruence.
Qed.
Lemma update_first use v a x n a' : mc_use a = use -> sample_ok use v x -> bins_for v (mc_bins a) ->
  mc_update auto 0 a (fst x) (snd x) = ((n, a'), Ok tt) ->
  (0 < n)%nat /\ (forall ix, inb v ix -> List.length (seen use (values x ix)) = n) /\
  exists E, inv use v n (fun ix => seen use (values x ix)) E a' /\
    match E with
    | None => mc_bins a = BNone
    | Some E => exists args r, first_args a v args r /\
        (forall ix, inb v ix -> np_histogram auto (seen use (values x ix)) (args ix) r = Ok (bin_counts (E ix) (seen use (values x ix)), E ix))
    end.
Proof.
  intros HU HS HB H.
  assert (CASES : mc_bins a = BNone \/ (exists args r, first_args a v args r) \/ exists m, mc_bins a = BArr m /\ forall k, shp m <> (v ++ [k])%list).
  { unfold first_args, bins_for in *. destruct (mc_bins a) as [|k|s|m|m]; auto.
    - right. left. exists (fun _ => HInt k), (mc_range a). auto.
    - right. left. exists (fun _ => HStr s), (mc_range a). auto.
    - destruct (list_eq_dec Nat.eq_dec (removelast (shp m)) v) as [E|E].
      + destruct (shp m) as [|d s'] eqn:SM.
        * right. right. exists m. split; auto. intros k C. rewrite SM in C. destruct v; discriminate.
        * right. left. exists (fun ix => HEdges (row m ix)), None. split; auto. split; auto. exists (last (d :: s') 0%nat). rewrite <- E. apply app_removelast_last. discriminate.
      + right. right. exists m. split; auto. intros k C. apply E. rewrite C. apply removelast_snoc.
    - right. left. exists (fun ix => match dat m ix with Some e => HEdges e | None => HObj end), None. auto. }
  destruct CASES as [B|[(args & r & FA)|(mm & B & NS)]].
  - destruct (update_first_none use v a x HU HS B) as (m & a1 & E1 & P & L & I). rewrite E1 in H. injection H as <- <-. split; [auto|]. split; [auto|]. exists None. auto.
  - destruct (first_moments use v a x HU HS) as (y & m & a1 & EY & SY & Pm & HR & E1 & M1 & B1 & R1 & U1 & _).
    assert (HO : forall ix, inb v ix -> exists c e, np_histogram auto (seen use (values x ix)) (args ix) r = Ok (c, e)).
    { unfold mc_update in H. rewrite HU, EY in H. simpl Nat.eqb in H. cbv iota in H. rewrite E1 in H.
      destruct (mc_update_histogram auto true 0 y a1) as [a2 [[]|]] eqn:EH; [|discriminate].
      apply (first_histogram_inv auto v m m (fun ix => seen use (values x ix)) a1 y args r a2); auto.
      - intros; apply HR; auto.
      - eauto.
      - unfold first_args in *. rewrite B1, R1. exact FA. }
    destruct (update_first_ok use v a x args r HU HS FA HO) as (m' & a2 & E & E2 & P & L & I & HE). rewrite E2 in H. injection H as <- <-.
    split; [auto|]. split; [auto|]. exists (Some E). split; auto. exists args, r. auto.
  - exfalso. destruct (first_moments use v a x HU HS) as (y & m & a1 & EY & SY & Pm & HR & E1 & M1 & B1 & R1 & U1 & _).
    unfold mc_update in H. rewrite HU, EY in H. simpl Nat.eqb in H. cbv iota in H. rewrite E1 in H.
    destruct (moments_head _ _ _ _ M1) as (m0 & tl & EM & S0). unfold mc_update_histogram in H. rewrite B1, B, EM, S0 in H.
    assert (X : shape_eqb (removelast (shp mm)) v && negb (Nat.eqb (List.length (shp mm)) 0) = false).
    { unfold shape_eqb. destruct (list_eq_dec Nat.eq_dec (removelast (shp mm)) v) as [E|E]; [|reflexivity]. destruct (shp mm) as [|d s'] eqn:SM; [reflexivity|].
      exfalso. apply (NS (last (d :: s') 0%nat)). idtac.
  rewrite <- E. apply app_removelast_last. discriminate. }
    rewrite X in H. discriminate.
Qed.

Lemma updates_next use v E l : forall N D a, (0 < N)%nat -> inv use v N D E a -> List.Forall (sample_ok use v) l ->
  exists n a', mc_updates auto N a l = ((n, a'), Ok tt) /\ (N <= n)%nat /\ inv use v n (fun ix => D ix ++ data_of use l ix)%list E a'.
Proof.
  induction l as [|x l IH]; intros N D a HN HI HF; cbn [mc_updates].
  - exists N, a. split; [reflexivity|]. split; [lia|]. destruct HI as (A & B & C). split; [auto|]. unfold data_of. simpl.
    split; [eapply moments_inv_ext; [|exact B]|eapply hist_part_ext; [|exact C]]; intros; rewrite app_nil_r; auto.
  - inversion HF; subst. destruct (update_next use v N D E a x HN HI) as (m & a1 & E1 & P & L & I1); auto.
    destruct x as [x ax]. simpl fst in E1. simpl snd in E1. rewrite E1.
    destruct (IH (N + m)%nat (fun ix => D ix ++ seen use (values (x, ax) ix))%list a1) as (n & a' & E2 & LE & I2); auto; [lia|].
    exists n, a'. split; [auto|]. split; [lia|]. destruct I2 as (A & B & C). split; [auto|].
    split; [eapply moments_inv_ext; [|exact B]|eapply hist_part_ext; [|exact C]]; intros; cbv beta; rewrite <- app_assoc; reflexivity.
Qed.
Lemma updates_app a : forall l1 l2 N, mc_updates auto N a (l1 ++ l2) =
  match mc_updates auto N a l1 with ((n, a'), Ok _) => mc_updates auto n a' l2 | r => r end.
Proof.
  intros l1. revert a. induction l1 as [|[x ax] l1 IH]; intros a l2 N; simpl; auto. destruct (mc_update auto N a x ax) as [[n a'] [[]|]]; auto.
Qed.
(** any successful sequence of updates *)
Lemma updates_inv use v a l n a' : mc_use a = use -> bins_for v (mc_bins a) -> l <> [] -> List.Forall (sample_ok use v) l ->
  mc_updates auto 0 a l = ((n, a'), Ok tt) -> (0 < n)%nat /\ exists E, inv use v n (data_of use l) E a' /\
    match E with
    | None => mc_bins a = BNone
    | Some E => exists args r x l', l = x :: l' /\ first_args a v args r /\
        (forall ix, inb v ix -> np_histogram auto (seen use (values x ix)) (args ix) r = Ok (bin_counts (E ix) (seen use (values x ix)), E ix))
    end.
Proof.
  intros HU HB HL HF H. destruct l as [|x l]; [contradiction|]. inversion HF; subst. destruct x as [x ax]. cbn [mc_updates] in H.
  destruct (mc_update auto 0 a x ax) as [[n1 a1] [[]|]] eqn:E1; [|discriminate].
  destruct (update_first _ v a (x, ax) n1 a1 eq_refl) as (P & L & E & I & HE); auto.
  destruct (updates_next _ v E l n1 _ a1 P I) as (n2 & a2 & E2 & LE & I2); auto. rewrite E2 in H. injection H as <- <-.
  split; [lia|]. exists E. split; [exact I2|]. destruct E as [E|]; auto. destruct HE as (args & r & FA & HE). exists args, r, (x, ax), l. auto.
Qed.
End Updates.
