(** Lemmas on averages over independent paths. *)
From Coq Require Import List Arith Bool ZArith Reals Lra Lia.
From Coquelicot Require Import Coquelicot.
From Verif Require Import Base BaseNum BaseArr BaseNd BaseIdx M_process S_process L_nd L_process S_rv S_law S_gval L_gval L_gval2 L_gop S_mean L_cok L_tame L_meanlaw.
Import ListNotations.
Local Open Scope R_scope.

Lemma rsum_map {A B} (f : B -> R) (h : A -> B) l : rsum f (map h l) = rsum (fun a => f (h a)) l.
Proof. unfold rsum. rewrite map_map. reflexivity. Qed.
Lemma rsum_app {A} (f : A -> R) l l' : rsum f (l ++ l') = rsum f l + rsum f l'.
Proof. unfold rsum. induction l as [|a l IH]; cbn [app map fold_right]; [ring|]. rewrite IH. ring. Qed.
Lemma rsum_nth {A} (f : A -> R) d l : rsum f l = rsum (fun k => f (nth k l d)) (seq 0 (length l)).
Proof.
  unfold rsum. f_equal. induction l as [|a l IH]; [reflexivity|]. cbn [map length seq nth]. f_equal. rewrite <- seq_shift, map_map. exact IH.
Qed.
Lemma rsum_const {A} (c : R) (l : list A) : rsum (fun _ => c) l = INR (length l) * c.
Proof. unfold rsum. induction l as [|a l IH]; cbn [map fold_right length]; [cbn; ring|]. rewrite IH, S_INR. ring. Qed.
Lemma rprod_one {A} (l : list A) : rprod (fun _ => 1) l = 1.
Proof. unfold rprod. induction l as [|a l IH]; cbn [map fold_right]; [reflexivity|]. rewrite IH. ring. Qed.
Lemma rprod_mult {A} (f h : A -> R) l : rprod (fun a => f a * h a) l = rprod f l * rprod h l.
Proof. unfold rprod. induction l as [|a l IH]; cbn [map fold_right]; [ring|]. rewrite IH. ring. Qed.
Lemma rprod_pick {A} (dec : forall x y : A, {x = y} + {x <> y}) (f : A -> R) a l : NoDup l -> In a l -> rprod (fun x => if dec x a then f x else 1) l = f a.
Proof.
  intros ND HI. apply RtoC_inj. rewrite rprod_C. induction l as [|b l IH]; [easy|]. inversion ND as [|? ? NI ND']; subst. unfold cprod. cbn [map fold_right]. fold (cprod (fun x => RtoC (if dec x a then f x else 1)) l).
  destruct (dec b a) as [->|NE].
  - rewrite <- rprod_C. rewrite (rprod_ext _ (fun _ => 1)), rprod_one; [rewrite <- RtoC_mult; f_equal; ring|]. intros x Hx. destruct (dec x a) as [->|]; [contradiction|reflexivity].
  - destruct HI as [->|HI]; [contradiction|]. rewrite IH by auto. rewrite <- RtoC_mult. f_equal. ring.
Qed.

Section Average.
Context {G : Type}.
Variables (E : (G -> R) -> R) (w : list nat) (X : G -> list nat -> R) (val : R -> R) (mu v : list nat -> R).
Hypothesis EE : forall f h, (forall g, f g = h g) -> E f = E h.
Hypothesis SUM : forall K u f, (forall k ix, (k < K)%nat -> inb w ix -> cok (fun x => f k ix (val x))) ->
  E (fun g => rsum (fun k => u k * rprod (fun ix => f k ix (X g ix)) (ndindex w)) (seq 0 K)) =
  rsum (fun k => u k * rprod (fun ix => EN (fun z => f k ix (val (mu ix + sqrt (v ix) * z)))) (ndindex w)) (seq 0 K).
Lemma sum_list (l : list (R * (list nat -> R -> R))) : (forall p, In p l -> forall ix, inb w ix -> cok (fun x => snd p ix (val x))) ->
  E (fun g => rsum (fun p => fst p * rprod (fun ix => snd p ix (X g ix)) (ndindex w)) l) =
  rsum (fun p => fst p * rprod (fun ix => EN (fun z => snd p ix (val (mu ix + sqrt (v ix) * z)))) (ndindex w)) l.
Proof using EE SUM.
  intro H. set (p0 := (0, fun (_ : list nat) (_ : R) => 0)).
  rewrite (rsum_nth _ p0). rewrite <- (SUM (length l) (fun k => fst (nth k l p0)) (fun k => snd (nth k l p0))).
  - apply EE. intro g. apply (rsum_nth (fun p => fst p * rprod (fun ix => snd p ix (X g ix)) (ndindex w)) p0).
  - intros k ix Hk HI. apply H; [apply nth_In; exact Hk|exact HI].
Qed.
Variables (P : nat) (spot : nat -> list nat) (f : R -> R) (m0 v0 : R).
Hypothesis HP : (0 < P)%nat.
Hypothesis IS : forall j, (j < P)%nat -> inb w (spot j) /\ mu (spot j) = m0 /\ v (spot j) = v0.
Hypothesis SI : forall i j, (i < P)%nat -> (j < P)%nat -> spot i = spot j -> i = j.
Hypothesis TF : cok (fun x => f (val x)).
Hypothesis TF2 : cok (fun x => f (val x) * f (val x)).
Let A := EN (fun z => f (val (m0 + sqrt v0 * z))).
Let B := EN (fun z => f (val (m0 + sqrt v0 * z)) * f (val (m0 + sqrt v0 * z))).
Let est (g : G) : R := rsum (fun j => f (X g (spot j))) (seq 0 P) / INR P.
Let dec := list_eq_dec Nat.eq_dec.
Let at_spot (a : list nat) (ix : list nat) (x : R) : R := if dec ix a then f x else 1.
Lemma at_cok a ix : cok (fun x => at_spot a ix (val x)).
Proof using TF. unfold at_spot. destruct (dec ix a); [exact TF|apply cok_const]. Qed.
Lemma at_cok2 a c ix : cok (fun x => at_spot a ix (val x) * at_spot c ix (val x)).
Proof using TF TF2.
  unfold at_spot. destruct (dec ix a), (dec ix c); [exact TF2| | |]; [eapply cok_ext; [|exact TF]|eapply cok_ext; [|exact TF]|eapply cok_ext; [|exact (cok_const 1)]]; intro; cbv beta; ring.
Qed.
Lemma at_prod a g : inb w a -> rprod (fun ix => at_spot a ix (X g ix)) (ndindex w) = f (X g a).
Proof using. intro H. apply (rprod_pick dec (fun ix => f (X g ix))); [apply NoDup_ndindex|apply in_ndindex; exact H]. Qed.
Lemma at_mean a ix : EN (fun z => at_spot a ix (val (mu ix + sqrt (v ix) * z))) = if dec ix a then EN (fun z => f (val (mu ix + sqrt (v ix) * z))) else 1.
Proof using. unfold at_spot. destruct (dec ix a); [reflexivity|apply EN_const]. Qed.
Lemma pairs_mean i j : (i < P)%nat -> (j < P)%nat ->
  rprod (fun ix => EN (fun z => at_spot (spot i) ix (val (mu ix + sqrt (v ix) * z)) * at_spot (spot j) ix (val (mu ix + sqrt (v ix) * z)))) (ndindex w) = if Nat.eq_dec i j then B else A * A.
Proof using IS SI.
  intros Hi Hj. destruct (IS i Hi) as (I1 & M1 & V1). destruct (IS j Hj) as (I2 & M2 & V2). destruct (Nat.eq_dec i j) as [<-|NE].
  - rewrite (rprod_ext _ (fun ix => if dec ix (spot i) then EN (fun z => f (val (mu ix + sqrt (v ix) * z)) * f (val (mu ix + sqrt (v ix) * z))) else 1)).
    + rewrite (rprod_pick dec) by (try apply NoDup_ndindex; apply in_ndindex; auto). rewrite M1, V1. reflexivity.
    + intros ix _. unfold at_spot. destruct (dec ix (spot i)); [reflexivity|]. rewrite (EN_ext _ (fun _ => 1)) by (intro; ring). apply EN_const.
  - rewrite (rprod_ext _ (fun ix => (if dec ix (spot i) then EN (fun z => f (val (mu ix + sqrt (v ix) * z))) else 1) * (if dec ix (spot j) then EN (fun z => f (val (mu ix + sqrt (v ix) * z))) else 1))).
    + rewrite rprod_mult, !(rprod_pick dec) by (try apply NoDup_ndindex; apply in_ndindex; auto). rewrite M1, V1, M2, V2. reflexivity.
    + intros ix _. unfold at_spot. destruct (dec ix (spot i)) as [Q1|Q1], (dec ix (spot j)) as [Q2|Q2].
      * exfalso. apply NE, SI; auto. congruence.
      * rewrite Rmult_1_r. apply EN_ext. intro. ring.
      * rewrite Rmult_1_l. apply EN_ext. intro. ring.
      * rewrite (EN_ext _ (fun _ => 1)) by (intro; ring). rewrite EN_const. ring.
Qed.
Lemma one_mean j : (j < P)%nat -> rprod (fun ix => EN (fun z => at_spot (spot j) ix (val (mu ix + sqrt (v ix) * z)))) (ndindex w) = A.
Proof using IS.
  intro Hj. destruct (IS j Hj) as (I2 & M2 & V2). rewrite (rprod_ext _ (fun ix => if dec ix (spot j) then EN (fun z => f (val (mu ix + sqrt (v ix) * z))) else 1)) by (intros; apply at_mean).
  rewrite (rprod_pick dec) by (try apply NoDup_ndindex; apply in_ndindex; auto). rewrite M2, V2. reflexivity.
Qed.
Lemma average : E est = A /\ E (fun g => (est g - A)^2) = (B - A^2) / INR P.
Proof using EE SUM HP IS SI TF TF2.
  assert (PP : 0 < INR P) by (apply lt_0_INR; exact HP). set (p := / INR P).
  set (l1 := fun c : R => map (fun j => (c, at_spot (spot j))) (seq 0 P)).
  set (l2 := map (fun q : nat * nat => (p*p, fun ix x => at_spot (spot (fst q)) ix x * at_spot (spot (snd q)) ix x)) (list_prod (seq 0 P) (seq 0 P))).
  set (l0 := [(A*A, fun (_ : list nat) (_ : R) => 1)]).
  assert (T1 : forall c q, In q (l1 c) -> forall ix, inb w ix -> cok (fun x => snd q ix (val x))).
  { intros c q Hq ix _. unfold l1 in Hq. apply in_map_iff in Hq. destruct Hq as (j & <- & _). apply at_cok. }
  assert (V1 : forall c g, rsum (fun p => fst p * rprod (fun ix => snd p ix (X g ix)) (ndindex w)) (l1 c) = c * rsum (fun j => f (X g (spot j))) (seq 0 P)).
  { intros c g. unfold l1. rewrite rsum_map. cbn [fst snd]. rewrite <- rsum_scal. apply rsum_ext. intros j Hj. apply in_seq in Hj. rewrite at_prod by (apply IS; lia). reflexivity. }
  assert (S1 : forall c, rsum (fun p => fst p * rprod (fun ix => EN (fun z => snd p ix (val (mu ix + sqrt (v ix) * z)))) (ndindex w)) (l1 c) = c * (INR P * A)).
  { intro c. unfold l1. rewrite rsum_map. cbn [fst snd]. rewrite (rsum_ext _ (fun _ => c * A)); [rewrite rsum_const, seq_length; ring|]. intros j Hj. apply in_seq in Hj. rewrite one_mean by lia. reflexivity. }
  split.
  - rewrite (EE _ (fun g => rsum (fun p => fst p * rprod (fun ix => snd p ix (X g ix)) (ndindex w)) (l1 p))) by (intro g; rewrite V1; unfold est, p; field; lra).
    rewrite sum_list by apply T1. rewrite S1. unfold p. field. lra.
  - rewrite (EE _ (fun g => rsum (fun p => fst p * rprod (fun ix => snd p ix (X g ix)) (ndindex w)) (l2 ++ l1 (-2*A*p) ++ l0))).
    + rewrite sum_list.
      * rewrite !rsum_app, S1. unfold l2, l0. rewrite rsum_map, rsum_prod. cbn [fst snd].
        rewrite (rsum_ext _ (fun i => p*p * (INR P * (A*A) + (B - A*A)))).
        -- rewrite rsum_const, seq_length. unfold rsum. cbn [map fold_right fst snd]. rewrite (rprod_ext _ (fun _ => 1)) by (intros; apply EN_const). rewrite rprod_one. unfold p. field. lra.
        -- intros i Hi. apply in_seq in Hi. rewrite (rsum_ext _ (fun j => p*p*(A*A) + (p*p*(B - A*A)) * (if Nat.eq_dec i j then 1 else 0))).
           ++ rewrite rsum_plus, rsum_const, rsum_scal, seq_length, (rsum_one Nat.eq_dec (fun _ => 1)) by (try apply seq_NoDup; apply in_seq; lia). ring.
           ++ intros j Hj. apply in_seq in Hj. rewrite pairs_mean by lia. destruct (Nat.eq_dec i j); ring.
      * intros q Hq ix HI. rewrite !in_app_iff in Hq. destruct Hq as [Hq|[Hq|Hq]].
        -- unfold l2 in Hq. apply in_map_iff in Hq. destruct Hq as (j & <- & _). cbn [snd]. apply at_cok2.
        -- exact (T1 _ q Hq ix HI).
        -- destruct Hq as [<-|[]]. cbn [snd]. apply cok_const.
    + intro g. rewrite !rsum_app, V1. unfold l2, l0. rewrite rsum_map, rsum_prod. cbn [fst snd]. set (S := rsum (fun j => f (X g (spot j))) (seq 0 P)).
      rewrite (rsum_ext _ (fun i => (p*p*S) * f (X g (spot i)))).
      * rewrite rsum_scal. fold S. unfold rsum. cbn [map fold_right fst snd]. rewrite rprod_one. unfold est. fold S. unfold p. field. lra.
      * intros i Hi. apply in_seq in Hi. rewrite (rsum_ext _ (fun j => (p*p*f (X g (spot i))) * f (X g (spot j)))); [rewrite rsum_scal; fold S; ring|].
        intros j Hj. apply in_seq in Hj. rewrite rprod_mult, !at_prod by (apply IS; lia). ring.
Qed.
(** sum of the squared deviations from the average, times any constant *)
Lemma spread c : E (fun g => c * rsum (fun j => (f (X g (spot j)) - est g)^2) (seq 0 P)) = c * ((INR P - 1) * (B - A^2)).
Proof using EE SUM HP IS SI TF TF2.
  assert (PP : 0 < INR P) by (apply lt_0_INR; exact HP). set (p := / INR P).
  set (two := fun (q : nat * nat) ix x => at_spot (spot (fst q)) ix x * at_spot (spot (snd q)) ix x).
  set (l1 := map (fun j => (c, two (j, j))) (seq 0 P)). set (l2 := map (fun q : nat * nat => (- (c * p), two q)) (list_prod (seq 0 P) (seq 0 P))).
  rewrite (EE _ (fun g => rsum (fun p => fst p * rprod (fun ix => snd p ix (X g ix)) (ndindex w)) (l1 ++ l2))).
  - rewrite sum_list.
    + rewrite rsum_app. unfold l1, l2. rewrite !rsum_map, rsum_prod. cbn [fst snd]. unfold two. cbn [fst snd].
      rewrite (rsum_ext (fun j => c * _) (fun _ => c * B)).
      2: { intros j Hj. apply in_seq in Hj. rewrite pairs_mean by lia. destruct (Nat.eq_dec j j); [ring|congruence]. }
      rewrite (rsum_ext (fun i => rsum _ _) (fun i => - (c * p) * (INR P * (A*A) + (B - A*A)))).
      * rewrite !rsum_const, seq_length. unfold p. field. lra.
      * intros i Hi. apply in_seq in Hi. rewrite (rsum_ext _ (fun j => - (c * p)*(A*A) + (- (c * p)*(B - A*A)) * (if Nat.eq_dec i j then 1 else 0))).
        -- rewrite rsum_plus, rsum_const, rsum_scal, seq_length, (rsum_one Nat.eq_dec (fun _ => 1)) by (try apply seq_NoDup; apply in_seq; lia). ring.
        -- intros j Hj. apply in_seq in Hj. rewrite pairs_mean by lia. destruct (Nat.eq_dec i j); ring.
    + intros q Hq ix HI. rewrite !in_app_iff in Hq. destruct Hq as [Hq|Hq]; apply in_map_iff in Hq; destruct Hq as (j & <- & _); cbn [snd]; unfold two; apply at_cok2.
  - intro g. rewrite !rsum_app. unfold l1, l2. rewrite !rsum_map, rsum_prod. cbn [fst snd]. unfold two. cbn [fst snd]. set (S := rsum (fun j => f (X g (spot j))) (seq 0 P)).
    set (Q := rsum (fun j => f (X g (spot j)) * f (X g (spot j))) (seq 0 P)).
    transitivity (c * (Q - p * (S * S))).
    + f_equal. rewrite (rsum_ext _ (fun j => f (X g (spot j)) * f (X g (spot j)) + (- (2 * (p * S)) * f (X g (spot j)) + (p * S) * (p * S)))).
      * rewrite rsum_plus. fold Q. rewrite rsum_plus, rsum_scal, rsum_const, seq_length. fold S. unfold p. field. lra.
      * intros j _. unfold est. fold S. unfold p. field. lra.
    + rewrite (rsum_ext (fun j => c * _) (fun j => c * (f (X g (spot j)) * f (X g (spot j))))).
      2: { intros j Hj. apply in_seq in Hj. rewrite rprod_mult, !at_prod by (apply IS; lia). ring. }
      rewrite rsum_scal. fold Q. rewrite (rsum_ext (fun i => rsum _ _) (fun i => (- (c*p)*S) * f (X g (spot i)))).
      * rewrite rsum_scal. fold S. ring.
      * intros i Hi. apply in_seq in Hi. rewrite (rsum_ext _ (fun j => (- (c*p)*f (X g (spot i))) * f (X g (spot j)))); [rewrite rsum_scal; fold S; ring|].
        intros j Hj. apply in_seq in Hj. rewrite rprod_mult, !at_prod by (apply IS; lia). ring.
Qed.
End Average.
