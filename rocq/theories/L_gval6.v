(** Lemmas on Gaussian values: exponentials of one or two values, closed forms of covariances, and a generator with
    correlated draws. *)
From Coq Require Import String List Arith Bool ZArith Reals Lra Lia.
From Coquelicot Require Import Coquelicot.
From Verif Require Import Base BaseNum BaseArr BaseNd BaseIdx M_source S_source L_nd L_pack L_euler2 M_rv S_rv M_analytical S_law P_chf L_law L_law2 L_law8 S_gval L_gval L_gval2 L_gval5.
Import ListNotations.
Local Open Scope R_scope.

Definition pair_dec : forall x y : nat * list nat, {x = y} + {x <> y}.
Proof. decide equality; [apply list_eq_dec; apply Nat.eq_dec|apply Nat.eq_dec]. Defined.
Lemma NoDup_prod {A B} (l : list A) (m : list B) : NoDup l -> NoDup m -> NoDup (list_prod l m).
Proof.
  intros Hl Hm. induction Hl as [|a l Ha Hl IH]; [constructor|]. cbn [list_prod]. apply NoDup_app2.
  - clear -Hm. induction Hm as [|b m Hb Hm IH]; cbn [map]; constructor; auto. rewrite in_map_iff. intros (c & E & Hc). injection E as <-. auto.
  - exact IH.
  - intros [x y] H1 H2. apply in_map_iff in H1. destruct H1 as (c & E & _). injection E as <- <-. apply in_prod_iff in H2. tauto.
Qed.
Lemma NoDup_entries N w : NoDup (entries N w).
Proof. apply NoDup_prod; [apply seq_NoDup|apply NoDup_ndindex]. Qed.
Lemma in_entries N w i ix : (i < N)%nat -> inb w ix -> In (i, ix) (entries N w).
Proof. intros H1 H2. apply in_prod_iff. split; [apply in_seq; lia|apply in_ndindex; auto]. Qed.

Section Gauss.
Context {G : Type}.
Variables (E : (G -> R) -> R) (N : nat) (w : list nat) (X : G -> nat * list nat -> R) (m : nat * list nat -> R) (c : nat * list nat -> nat * list nat -> R).
Hypothesis HE : forall f h, (forall g, f g = h g) -> E f = E h.
Hypothesis HG : gaussian E (entries N w) X m c.
(** characteristic function of one value *)
Definition at_one (a : nat * list nat) (z : C) (x : nat * list nat) : C := if pair_dec a x then z else 0%C.
Lemma csum_at (f : nat * list nat -> C) a z l : NoDup l -> In a l -> csum (fun x => at_one a z x * f x)%C l = (z * f a)%C.
Proof.
  intros H1 H2. rewrite <- (csum_one pair_dec (fun x => z * f x)%C a l H1 H2). apply csum_ext. intros x _. unfold at_one. destruct (pair_dec a x); ring.
Qed.
Lemma csum_two (f : nat * list nat -> C) a b y z l : NoDup l -> In a l -> In b l -> csum (fun x => (at_one a y x + at_one b z x) * f x)%C l = (y * f a + z * f b)%C.
Proof.
  intros H1 H2 H3. rewrite <- (csum_at f a y l), <- (csum_at f b z l), <- csum_plus by auto. apply csum_ext. intros. ring.
Qed.
Lemma gaussian_two a b y z : In a (entries N w) -> In b (entries N w) ->
  has_mean E (fun g => cexp (y * RtoC (X g a) + z * RtoC (X g b))%C)
    (cexp (y * RtoC (m a) + z * RtoC (m b) + RtoC (/2) * (y * y * RtoC (c a a) + y * z * RtoC (c a b + c b a) + z * z * RtoC (c b b)))%C).
Proof using HE HG.
  intros Ha Hb. assert (ND := NoDup_entries N w). assert (Q := HG (fun x => at_one a y x + at_one b z x)%C (RtoC 1)). cbv beta in Q.
  rewrite (csum_two (fun x => RtoC (m x)) a b y z _ ND Ha Hb) in Q.
  assert (QS : qsum c (entries N w) (fun x => at_one a y x + at_one b z x)%C = (y * y * RtoC (c a a) + y * z * RtoC (c a b + c b a) + z * z * RtoC (c b b))%C).
  { unfold qsum. rewrite (csum_ext _ (fun x => (at_one a y x + at_one b z x) * (y * RtoC (c x a) + z * RtoC (c x b)))%C).
    - rewrite (csum_two (fun x => y * RtoC (c x a) + z * RtoC (c x b))%C) by auto. rewrite RtoC_plus. ring.
    - intros x _. rewrite <- (csum_two (fun x' => RtoC (c x x')) a b y z _ ND Ha Hb), <- csum_scal. apply csum_ext. intros. ring. }
  rewrite QS in Q. rewrite Cmult_1_l in Q. destruct Q as [Q1 Q2]. split; [rewrite <- Q1|rewrite <- Q2]; apply HE; intro g; rewrite (csum_two (fun x => RtoC (X g x)) a b y z _ ND Ha Hb), Cmult_1_l; reflexivity.
Qed.
Lemma gaussian_chf a u : In a (entries N w) ->
  has_mean E (fun g => cexp (cj u * RtoC (X g a))%C) (cexp (cj u * RtoC (m a) - RtoC (u*u/2 * c a a))%C).
Proof using HE HG.
  intro Ha. destruct (gaussian_two a a (cj u) 0%C Ha Ha) as [Q1 Q2].
  replace (cexp (cj u * RtoC (m a) - RtoC (u*u/2 * c a a))%C) with
    (cexp (cj u * RtoC (m a) + 0 * RtoC (m a) + RtoC (/2) * (cj u * cj u * RtoC (c a a) + cj u * 0 * RtoC (c a a + c a a) + 0 * 0 * RtoC (c a a)))%C).
  2: { f_equal. unfold cj, Cminus, Cmult, Cplus, Copp, RtoC. cbn [fst snd]. f_equal; field. }
  split; [rewrite <- Q1|rewrite <- Q2]; apply HE; intro g; do 2 f_equal; ring.
Qed.
Lemma gaussian_exp2 a b y z : In a (entries N w) -> In b (entries N w) ->
  E (fun g => exp (y * X g a + z * X g b)) = exp (y * m a + z * m b + (y*y * c a a + y*z * (c a b + c b a) + z*z * c b b)/2).
Proof using HE HG.
  intros Ha Hb. destruct (gaussian_two a b (RtoC y) (RtoC z) Ha Hb) as [Q _].
  assert (CR : forall r, cexp (RtoC r) = RtoC (exp r)) by (intro r; unfold cexp, RtoC; cbn [fst snd]; rewrite cos_0, sin_0; f_equal; ring).
  repeat (rewrite <- RtoC_mult in Q || rewrite <- RtoC_plus in Q). rewrite CR in Q. change (fst (RtoC ?r)) with r in Q.
  rewrite (HE _ (fun g => fst (cexp (RtoC y * RtoC (X g a) + RtoC z * RtoC (X g b))%C))).
  - rewrite Q. f_equal. field.
  - intro g. rewrite <- !RtoC_mult, <- RtoC_plus, CR. reflexivity.
Qed.
End Gauss.

(** *** closed forms *)
Lemma revert_closed k1 k2 s t : k1 + k2 <> 0 ->
  revert_cov k1 k2 s t = (exp (-k1*(s - Rmin s t)) * exp (-k2*(t - Rmin s t)) - exp (-k1*s) * exp (-k2*t)) / (k1 + k2).
Proof.
  intro K. unfold revert_cov. apply is_RInt_unique.
  set (F := fun r => exp (-k1*(s - r)) * exp (-k2*(t - r)) / (k1 + k2)).
  replace ((_ - _) / (k1 + k2)) with (minus (F (Rmin s t)) (F 0)).
  2: { unfold minus, plus, opp, F. cbn. rewrite !Rminus_0_r. field. exact K. }
  apply (is_RInt_derive F).
  - intros r _. unfold F. auto_derive; auto. match goal with |- ?a = ?b => change (@eq R a b) end. unfold Rminus. field. exact K.
  - intros r _. apply (ex_derive_continuous (fun r => exp (-k1*(s - r)) * exp (-k2*(t - r)))). auto_derive. auto.
Qed.
Lemma revert_sum_0 k s t : revert_cov k (-k) s t = exp (-k*(s - t)) * Rmin s t.
Proof.
  unfold revert_cov. apply is_RInt_unique.
  apply (is_RInt_ext (fun _ => exp (-k*(s - t)))).
  - intros r _. rewrite <- exp_plus. f_equal. ring.
  - assert (X := is_RInt_const 0 (Rmin s t) (exp (-k*(s - t)))). unfold scal in X. cbn in X. unfold mult in X. cbn in X.
    replace (exp (-k*(s - t)) * Rmin s t) with ((Rmin s t - 0) * exp (-k*(s - t))) by ring. exact X.
Qed.
Lemma revert_sym k1 k2 s t : revert_cov k1 k2 s t = revert_cov k2 k1 t s.
Proof. unfold revert_cov. rewrite Rmin_comm. apply RInt_ext. intros. apply Rmult_comm. Qed.
Lemma revert_var k t : k <> 0 -> revert_cov k k t t = (1 - exp (-2*k*t)) / (2*k).
Proof.
  intro K. rewrite revert_closed by lra. rewrite Rmin_left by lra. replace (t - t) with 0 by ring. rewrite !Rmult_0_r, exp_0.
  replace (exp (-2*k*t)) with (exp (-k*t) * exp (-k*t)) by (rewrite <- exp_plus; f_equal; ring). field. lra.
Qed.
Lemma revert_cross k1 k2 t : k1 + k2 <> 0 -> revert_cov k1 k2 t t = (1 - exp (-(k1 + k2)*t)) / (k1 + k2).
Proof.
  intro K. rewrite revert_closed by lra. rewrite Rmin_left by lra. replace (t - t) with 0 by ring. rewrite !Rmult_0_r, exp_0.
  replace (exp (-(k1 + k2)*t)) with (exp (-k1*t) * exp (-k2*t)) by (rewrite <- exp_plus; f_equal; ring). field. exact K.
Qed.
Lemma revert_oruh x theta k sigma t : k <> 0 -> sigma * sigma * revert_cov k k t t = oruh_var x theta k sigma t.
Proof. intro K. rewrite revert_var by auto. unfold oruh_var. field. exact K. Qed.

(** *** a generator with draws of two correlated variates *)
Section Gen.
Variable ls : list R.
Definition the_mvnormal (cov : arr R) (s : list nat) (g : gen) : res (arr R) * gen :=
  match shp cov with
  | [2%nat; 2%nat] =>
    let r := dat cov [0; 1]%nat in
    match the_normal ls (s ++ [2%nat]) g with
    | (Ok a, g') => (Ok (mkArr (s ++ [2%nat]) (fun ix => match rev ix with
        | 1%nat :: q => r * dat a (rev q ++ [0%nat]) + sqrt (1 - r*r) * dat a (rev q ++ [1%nat])
        | _ => dat a ix end)), g')
    | (Err e, g') => (Err e, g')
    end
  | M :: _ => (Ok (mkArr (s ++ [M]) (fun _ => 0)), g)
  | [] => (Ok (mkArr s (fun _ => 0)), g)
  end.
Lemma the_mvnormal_ok : mvnormal_ok the_mvnormal.
Proof.
  intros M cov s g HS. unfold the_mvnormal. rewrite HS. destruct M as [|[|[|M]]]; try (eexists _, _; split; reflexivity).
Qed.
Lemma the_mvnormal_law r s : -1 <= r <= 1 -> mvnormal_law (the_law ls) the_mvnormal 2 (fun i j => if Nat.eq_dec i j then 1 else r) s.
Proof.
  intros Hr cov SC HC d Phi u z H. set (q := sqrt (1 - r*r)). assert (QQ : q * q = 1 - r*r) by (apply sqrt_def; nra).
  assert (ER : dat cov [0; 1]%nat = r) by (rewrite HC by lia; reflexivity).
  set (conv := fun a : arr R => mkArr (s ++ [2%nat]) (fun ix => match rev ix with
        | 1%nat :: q0 => r * dat a (rev q0 ++ [0%nat]) + q * dat a (rev q0 ++ [1%nat])
        | _ => dat a ix end)).
  set (v := fun ix : list nat => match rev ix return C with
        | 0%nat :: q0 => (u (rev q0 ++ [0%nat]) + RtoC r * u (rev q0 ++ [1%nat]))%C
        | 1%nat :: q0 => (RtoC q * u (rev q0 ++ [1%nat]))%C
        | _ => RtoC 0 end).
  assert (NL := the_normal_law ls (s ++ [2%nat]) d (fun a => Phi (conv a)) (fun ix x => cexp (v ix * RtoC x)%C) (fun ix => cexp (v ix * v ix * RtoC (/2))%C) z).
  assert (SUM : forall f : list nat -> C, csum f (ndindex (s ++ [2%nat])) = csum (fun q0 => f (q0 ++ [0%nat])%list + f (q0 ++ [1%nat])%list)%C (ndindex s)).
  { intro f. rewrite csum_nd_app. apply csum_ext. intros q0 _. rewrite csum_nd_1. cbn [seq]. unfold csum. cbn [map fold_right]. ring. }
  assert (REV : forall (q0 : list nat) i, rev (q0 ++ [i]) = i :: rev q0) by (intros; rewrite rev_app_distr; reflexivity).
  assert (RHS : cexp (RtoC (/2) * csum (fun q0 => qsum (fun i j => if Nat.eq_dec i j then 1 else r) (seq 0 2) (fun i => u (q0 ++ [i])%list)) (ndindex s))%C =
    cprod (fun ix => cexp (v ix * v ix * RtoC (/2))%C) (ndindex (s ++ [2%nat]))).
  { rewrite <- cexp_csum. f_equal. rewrite SUM, <- csum_scal. apply csum_ext. intros q0 _. unfold v. rewrite !REV, !rev_involutive.
    unfold qsum, csum. cbn [seq map fold_right Nat.eq_dec]. destruct (Nat.eq_dec 0 0); [|lia]. destruct (Nat.eq_dec 1 1); [|lia]. destruct (Nat.eq_dec 0 1); [lia|]. destruct (Nat.eq_dec 1 0); [lia|].
    transitivity (RtoC (/2) * (u (q0 ++ [0%nat]) * u (q0 ++ [0%nat]) + RtoC 2 * RtoC r * u (q0 ++ [0%nat]) * u (q0 ++ [1%nat]) + u (q0 ++ [1%nat]) * u (q0 ++ [1%nat]) * (RtoC (r*r) + RtoC (q*q))))%C.
    - rewrite QQ, <- RtoC_plus. replace (r*r + (1 - r*r)) with 1 by ring. rewrite (RtoC_plus 1 1) || replace (RtoC 2) with (RtoC 1 + RtoC 1)%C by (rewrite <- RtoC_plus; f_equal; ring). ring.
    - rewrite !RtoC_mult. replace (RtoC 2) with (RtoC 1 + RtoC 1)%C by (rewrite <- RtoC_plus; f_equal; ring). ring. }
  rewrite RHS. eapply hm_ext; [exact (the_is_law ls)| |apply NL].
  - intro g. unfold after, the_mvnormal. rewrite SC, ER. destruct (the_normal ls (s ++ [2%nat]) g) as [[a|] g']; reflexivity.
  - intros a Sa _. rewrite <- cexp_csum.
    replace (csum (fun ix => v ix * RtoC (dat a ix)) (ndindex (s ++ [2%nat])))%C with (csum (fun ix => u ix * RtoC (dat (conv a) ix)) (ndindex (s ++ [2%nat])))%C; [apply H; reflexivity|].
    rewrite !SUM. apply csum_ext. intros q0 _. unfold v, conv. cbn [dat]. rewrite !REV, !rev_involutive, RtoC_plus, !RtoC_mult. ring.
  - intros ix _. apply normal_exp.
Qed.
End Gen.
