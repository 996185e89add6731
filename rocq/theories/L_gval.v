(** Lemmas on Gaussian values, and on the law of the increments of Wiener sources. *)
From Coq Require Import List Arith Bool ZArith Reals Lra Lia.
From Coquelicot Require Import Coquelicot.
From Verif Require Import Base BaseNum BaseArr BaseNd BaseIdx M_process M_source S_mc S_process S_source L_nd L_process L_process2 L_source M_rv S_rv L_rv M_analytical S_analytical
  L_mix S_euler S_law S_gval P_chf L_law M_sde M_integrate S_integrate P_source P_source2 P_source3 L_euler2 L_law2 L_law4.
Import ListNotations.
Local Open Scope R_scope.

(** *** sums *)
Lemma csum_nd_app (f : list nat -> C) s' : forall s, csum f (ndindex (s ++ s')) = csum (fun i => csum (fun j => f (i ++ j)%list) (ndindex s')) (ndindex s).
Proof.
  intro s. revert f. induction s as [|d s IH]; intro f; cbn [app ndindex].
  - unfold csum at 2. cbn [map fold_right]. rewrite Cplus_0_r. reflexivity.
  - rewrite !csum_flat. apply csum_ext. intros i _. rewrite !csum_map. rewrite IH. reflexivity.
Qed.
Lemma csum_nd_1 (f : list nat -> C) n : csum f (ndindex [n]) = csum (fun i => f [i]) (seq 0 n).
Proof. rewrite ndindex_1, csum_map. reflexivity. Qed.
Lemma csum_prod {A B} (f : A * B -> C) l l' : csum f (list_prod l l') = csum (fun a => csum (fun b => f (a, b)) l') l.
Proof.
  induction l as [|a l IH]; [reflexivity|]. cbn [list_prod]. rewrite csum_app, csum_map, IH. reflexivity.
Qed.
Lemma rsum_csum {A} (f : A -> R) l : RtoC (rsum f l) = csum (fun a => RtoC (f a)) l.
Proof. unfold rsum, csum. induction l as [|a l IH]; [reflexivity|]. cbn [map fold_right]. rewrite RtoC_plus, IH. reflexivity. Qed.
Lemma rsum_ext {A} (f h : A -> R) l : (forall x, In x l -> f x = h x) -> rsum f l = rsum h l.
Proof. intro H. unfold rsum. f_equal. apply map_ext_in. exact H. Qed.
Lemma qsum_ext {A} (c : A -> A -> R) l u v : (forall x, In x l -> u x = v x) -> qsum c l u = qsum c l v.
Proof. intro H. apply csum_ext. intros x Hx. apply csum_ext. intros y Hy. rewrite !H by auto. reflexivity. Qed.
Lemma qsum_ext2 {A} (c d : A -> A -> R) l u : (forall x y, In x l -> In y l -> c x y = d x y) -> qsum c l u = qsum d l u.
Proof. intro H. apply csum_ext. intros x Hx. apply csum_ext. intros y Hy. rewrite !H by auto. reflexivity. Qed.
Lemma qsum_scal {A} (c : A -> A -> R) l u k : qsum c l (fun x => k * u x)%C = (k * k * qsum c l u)%C.
Proof.
  unfold qsum. rewrite <- csum_scal. apply csum_ext. intros x _. rewrite <- csum_scal. apply csum_ext. intros y _. ring.
Qed.
Lemma csum_scal_r {A} (f : A -> C) c l : csum (fun x => f x * c)%C l = (csum f l * c)%C.
Proof. rewrite Cmult_comm, <- csum_scal. apply csum_ext. intros. ring. Qed.
(** a sum with one term *)
Lemma csum_one {A} (dec : forall x y : A, {x = y} + {x <> y}) (f : A -> C) a l : NoDup l -> In a l -> csum (fun x => if dec a x then f x else 0%C) l = f a.
Proof.
  intros ND. induction ND as [|x l NI ND IH]; intro H; [easy|].
  change (csum ?F (x :: l)) with (F x + csum F l)%C. cbv beta. destruct (dec a x) as [->|NE].
  - rewrite (csum_ext _ (fun _ => 0%C)), csum_zero; [ring|]. intros y Hy. destruct (dec x y); [subst; contradiction|reflexivity].
  - destruct H as [H|H]; [congruence|]. rewrite IH by auto. ring.
Qed.

(** *** affine functions of Gaussian values *)
Section Affine.
Context {G A B : Type}.
Variable E : (G -> R) -> R.
Hypothesis HE : forall f h, (forall g, f g = h g) -> E f = E h.
Lemma gaussian_ext (l : list A) X Y m m' c c' : gaussian E l X m c ->
  (forall g a, In a l -> X g a = Y g a) -> (forall a, In a l -> m a = m' a) -> (forall a b, In a l -> In b l -> c a b = c' a b) -> gaussian E l Y m' c'.
Proof.
  intros H EX EM EC theta k. destruct (H theta k) as [H1 H2].
  assert (K : (csum (fun a => theta a * RtoC (m' a)) l + RtoC (/2) * qsum c' l theta)%C = (csum (fun a => theta a * RtoC (m a)) l + RtoC (/2) * qsum c l theta)%C).
  { f_equal; [apply csum_ext; intros a Ha; rewrite EM by auto; reflexivity|]. f_equal. apply qsum_ext2. intros; symmetry; auto. }
  rewrite K. split; [rewrite <- H1|rewrite <- H2]; apply HE; intro g; f_equal; f_equal; f_equal; apply csum_ext; intros a Ha; rewrite EX by auto; reflexivity.
Qed.
Lemma gaussian_affine (l : list A) (l' : list B) X m c (k0 : B -> R) (M : B -> A -> R) : gaussian E l X m c ->
  gaussian E l' (fun g b => k0 b + rsum (fun a => M b a * X g a) l) (fun b => k0 b + rsum (fun a => M b a * m a) l)
    (fun b b' => rsum (fun a => rsum (fun a' => M b a * M b' a' * c a a') l) l).
Proof.
  intros H theta k. set (eta := fun a => csum (fun b => theta b * RtoC (M b a))%C l').
  set (k1 := (k * cexp (csum (fun b => theta b * RtoC (k0 b)) l'))%C).
  assert (S1 : forall Y : A -> R, csum (fun b => theta b * RtoC (k0 b + rsum (fun a => M b a * Y a)%R l)%R)%C l' =
    (csum (fun b => theta b * RtoC (k0 b)) l' + csum (fun a => eta a * RtoC (Y a)) l)%C).
  { intro Y. transitivity (csum (fun b => theta b * RtoC (k0 b) + csum (fun a => theta b * RtoC (M b a) * RtoC (Y a)) l)%C l').
    - apply csum_ext. intros b _. rewrite RtoC_plus, rsum_csum, Cmult_plus_distr_l. f_equal. rewrite <- csum_scal. apply csum_ext. intros a _. rewrite RtoC_mult. ring.
    - rewrite csum_plus, csum_swap. f_equal. apply csum_ext. intros a _. apply csum_scal_r. }
  destruct (H eta k1) as [H1 H2].
  match goal with |- has_mean E ?F ?z => assert (EF : forall g, F g = (k1 * cexp (csum (fun a => eta a * RtoC (X g a)) l))%C);
    [|assert (EZ : z = (k1 * cexp (csum (fun a => eta a * RtoC (m a)) l + RtoC (/2) * qsum c l eta))%C)] end.
  - intro g. rewrite S1, cexp_add. unfold k1. ring.
  - assert (QQ : qsum (fun b b' => rsum (fun a => rsum (fun a' => M b a * M b' a' * c a a')%R l) l) l' theta = qsum c l eta); [|rewrite S1, QQ, !cexp_add; unfold k1; ring].
    unfold qsum.
    transitivity (csum (fun b => csum (fun b' => csum (fun a => csum (fun a' => theta b * RtoC (M b a) * (theta b' * RtoC (M b' a')) * RtoC (c a a'))%C l) l) l') l').
    { apply csum_ext. intros b _. apply csum_ext. intros b' _. rewrite rsum_csum, <- csum_scal_r. apply csum_ext. intros a _. rewrite rsum_csum, <- csum_scal_r. apply csum_ext. intros a' _. rewrite !RtoC_mult. ring. }
    transitivity (csum (fun a => csum (fun a' => csum (fun b => csum (fun b' => theta b * RtoC (M b a) * (theta b' * RtoC (M b' a')) * RtoC (c a a'))%C l') l') l) l).
    { rewrite (csum_ext _ (fun b => csum (fun a => csum (fun b' => csum (fun a' => theta b * RtoC (M b a) * (theta b' * RtoC (M b' a')) * RtoC (c a a'))%C l) l') l)) by (intros; apply csum_swap).
      rewrite csum_swap. apply csum_ext. intros a _.
      rewrite (csum_ext _ (fun b => csum (fun a' => csum (fun b' => theta b * RtoC (M b a) * (theta b' * RtoC (M b' a')) * RtoC (c a a'))%C l') l)) by (intros; apply csum_swap).
      apply csum_swap. }
    apply csum_ext. intros a _. apply csum_ext. intros a' _. unfold eta.
    transitivity (csum (fun b => theta b * RtoC (M b a) * (csum (fun b' => theta b' * RtoC (M b' a')) l' * RtoC (c a a')))%C l').
    { apply csum_ext. intros b _. rewrite <- csum_scal_r, <- csum_scal. apply csum_ext. intros b' _. ring. }
    rewrite csum_scal_r. ring.
  - rewrite EZ. split; [rewrite <- H1|rewrite <- H2]; apply HE; intro g; rewrite EF; reflexivity.
Qed.
End Affine.

(** *** increments of Wiener sources *)
Definition swp (ix : list nat) : list nat := match rev ix with a :: b :: r => rev (b :: a :: r) | _ => ix end.
Lemma swp_snoc r a b : swp (r ++ [a; b])%list = (r ++ [b; a])%list.
Proof. unfold swp. rewrite rev_app_distr. cbn [rev app]. rewrite <- app_assoc. cbn [app]. rewrite rev_involutive. reflexivity. Qed.
Lemma csum_swp (f : list nat -> C) v M n :
  csum f (ndindex (v ++ [M; n])) = csum (fun r => csum (fun m => f (swp (r ++ [m]))) (seq 0 M)) (ndindex (v ++ [n])).
Proof.
  rewrite (csum_nd_app f [M; n]), (csum_nd_app (fun r => csum (fun m => f (swp (r ++ [m]))) (seq 0 M)) [n]). apply csum_ext. intros r _.
  rewrite nd2_sum, csum_nd_1, csum_swap. apply csum_ext. intros j _. apply csum_ext. intros m _. rewrite <- app_assoc. cbn [app]. rewrite swp_snoc. reflexivity.
Qed.
Lemma corr_swp c v n r s i j : inb (v ++ [n]) r -> inb (v ++ [n]) s ->
  entry_corr c (swp (r ++ [i])) (swp (s ++ [j])) = if list_eq_dec Nat.eq_dec r s then c i j else 0.
Proof.
  intros H1 H2.
  assert (K : forall l, inb (v ++ [n]) l -> exists l' q, l = (l' ++ [q])%list).
  { intros l H. destruct (@exists_last _ l) as (l' & q & E); [|exists l', q; exact E]. intros ->. apply inb_length in H. rewrite app_length in H. cbn in H. lia. }
  destruct (K r H1) as (r' & q & ->). destruct (K s H2) as (s' & q' & ->). rewrite <- !app_assoc. cbn [app]. rewrite !swp_snoc. unfold entry_corr. rewrite !rev_app_distr. cbn [rev app].
  destruct (list_eq_dec Nat.eq_dec (q :: rev r') (q' :: rev s')) as [E|E], (list_eq_dec Nat.eq_dec (r' ++ [q]) (s' ++ [q'])) as [E'|E']; auto.
  - exfalso. apply E'. injection E as -> E. apply (f_equal (@rev nat)) in E. rewrite !rev_involutive in E. rewrite E. reflexivity.
  - exfalso. apply E. apply app_inj_tail in E'. destruct E' as [-> ->]. reflexivity.
Qed.
Lemma qsum_swp c v M n u :
  qsum (entry_corr c) (ndindex (v ++ [M; n])) u = csum (fun r => qsum c (seq 0 M) (fun i => u (swp (r ++ [i])))) (ndindex (v ++ [n])).
Proof.
  unfold qsum. rewrite csum_swp. apply csum_ext. intros r Hr. apply csum_ext. intros i Hi. rewrite csum_swp.
  rewrite (csum_ext _ (fun s => if list_eq_dec Nat.eq_dec r s then csum (fun j => RtoC (c i j) * (u (swp (r ++ [i])) * u (swp (r ++ [j]))))%C (seq 0 M) else 0%C)).
  - rewrite csum_one; auto. apply NoDup_ndindex.
  - intros s Hs. destruct (list_eq_dec Nat.eq_dec r s) as [E|E].
    + subst s. apply csum_ext. intros j _. rewrite (corr_swp c v n) by (apply in_ndindex; auto). destruct (list_eq_dec Nat.eq_dec r r); [reflexivity|contradiction].
    + rewrite <- (csum_zero (seq 0 M)). apply csum_ext. intros j _. rewrite (corr_swp c v n) by (apply in_ndindex; auto). destruct (list_eq_dec Nat.eq_dec r s); [contradiction|]. ring.
Qed.
Lemma qsum_id c w u : (forall i j, c i j = if Nat.eq_dec i j then 1 else 0) -> qsum (entry_corr c) (ndindex w) u = csum (fun ix => u ix * u ix)%C (ndindex w).
Proof.
  intro H. unfold qsum. apply csum_ext. intros ix Hix.
  rewrite (csum_ext _ (fun jx => if list_eq_dec Nat.eq_dec ix jx then u ix * u jx else 0)%C).
  - apply (csum_one (list_eq_dec Nat.eq_dec) (fun jx => u ix * u jx)%C); auto. apply NoDup_ndindex.
  - intros jx Hjx. replace (entry_corr c ix jx) with (if list_eq_dec Nat.eq_dec ix jx then 1 else 0).
    + destruct (list_eq_dec Nat.eq_dec ix jx); ring.
    + unfold entry_corr. assert (RV : forall l l' : list nat, rev l = rev l' -> l = l') by (intros l l' E; rewrite <- (rev_involutive l), <- (rev_involutive l'), E; reflexivity).
      destruct (list_eq_dec Nat.eq_dec ix jx) as [->|NE].
      * destruct (rev jx) as [|p [|m r]]; try (destruct (list_eq_dec Nat.eq_dec _ _); [reflexivity|contradiction]).
        destruct (list_eq_dec Nat.eq_dec _ _); [|contradiction]. rewrite H. destruct (Nat.eq_dec m m); [reflexivity|contradiction].
      * assert (NR : rev ix <> rev jx) by auto. destruct (rev ix) as [|p [|m r]], (rev jx) as [|q [|n s]]; try (destruct (list_eq_dec Nat.eq_dec _ _); [congruence|reflexivity]).
        destruct (list_eq_dec Nat.eq_dec (p :: r) (q :: s)) as [E|_]; [|reflexivity]. rewrite H. destruct (Nat.eq_dec m n); [congruence|reflexivity].
Qed.

Section Source.
Context {G : Type}.
Variable L : nat -> (G -> R) -> R.
Hypothesis HL : is_law L.
Variables (normal : list nat -> G -> res (arr R) * G) (mvnormal : arr R -> list nat -> G -> res (arr R) * G).
Hypothesis N_ok : normal_ok normal.
Hypothesis M_ok : mvnormal_ok mvnormal.
Variables (vshape : list nat) (paths : nat) (c : nat -> nat -> R).
Let w := (vshape ++ [paths])%list.
Hypothesis N_law : normal_law L normal w.
Hypothesis M_law : forall v M, vshape = (v ++ [M])%list -> mvnormal_law L mvnormal M c (v ++ [paths]).

(** the two kinds of source *)
Definition kind (p : M_source.param R) : Prop :=
  (p = PNone /\ forall i j, c i j = if Nat.eq_dec i j then 1 else 0) \/
  exists a v M, p = PArr a /\ vshape = (v ++ [M])%list /\ is_matrix M a /\ forall i j, (i < M)%nat -> (j < M)%nat -> c i j = entry a i j.
Lemma kind_value p g t dt : kind p -> exists g' z, at_step (wiener_call normal mvnormal paths vshape p) g t dt = Ok (g', z) /\ can (shp z) w = true.
Proof.
  intros [[-> _]|(a & v & M & -> & -> & Ha & _)].
  - destruct (dw_value normal mvnormal N_ok vshape paths g t dt) as (z & E & Cz & _). eauto.
  - destruct (C27_constant normal mvnormal paths v M a (ascalar t) (ascalar dt) g [] M_ok eq_refl Ha) as (z & g' & dz & EN & D & S & H).
    exists g', dz. unfold at_step. rewrite D. split; [reflexivity|]. unfold w. rewrite <- app_assoc. cbn [app] in S |- *. rewrite S. apply can_refl.
Qed.
Lemma em_kind p u t dt D Psi z : kind p -> em L D Psi z ->
  em L (S D) (step_of (at_step (wiener_call normal mvnormal paths vshape p)) w u t dt Psi)
     (cexp (RtoC (Rabs dt/2) * qsum (entry_corr c) (ndindex w) u)%C * z)%C.
Proof.
  intros [[-> Hc]|(a & v & M & -> & EV & Ha & Hc)] H.
  - rewrite qsum_id by auto. rewrite <- csum_scal, cexp_csum. apply em_dw; auto.
  - set (k := sqrt (Rabs dt)). set (u' := fun ix => (RtoC k * u (swp ix))%C).
    assert (W : w = (v ++ [M; paths])%list) by (unfold w; rewrite EV, <- app_assoc; reflexivity).
    intros d c0 Hd. destruct d as [|d]; [lia|].
    destruct (drop_paths_plain M a Ha) as (_ & D2 & D3).
    assert (K := M_law v M EV (plain a) D2 (fun i j Hi Hj => eq_trans (D3 i j) (eq_sym (Hc i j Hi Hj))) d
      (fun x g' => c0 * (cexp (csum (fun ix => u' ix * RtoC (dat x ix))%C (ndindex ((v ++ [paths]) ++ [M]))) * Psi g'))%C u' (c0 * z)%C).
    replace (c0 * (cexp (RtoC (Rabs dt / 2) * qsum (entry_corr c) (ndindex w) u) * z))%C with
      (cexp (RtoC (/2) * csum (fun r => qsum c (seq 0 M) (fun i => u' (r ++ [i])%list)) (ndindex (v ++ [paths]))) * (c0 * z))%C.
    2: { rewrite W, qsum_swp. replace (RtoC (/2) * csum _ _)%C with (RtoC (Rabs dt/2) * csum (fun r => qsum c (seq 0 M) (fun i => u (swp (r ++ [i])))) (ndindex (v ++ [paths])))%C; [ring|].
         rewrite <- !csum_scal. apply csum_ext. intros r _. unfold u'. rewrite (qsum_scal c (seq 0 M) (fun i => u (swp (r ++ [i]))) (RtoC k)), <- RtoC_mult. unfold k. rewrite sqrt_sqrt by apply Rabs_pos.
         unfold Rdiv. rewrite RtoC_mult. ring. }
    eapply hm_ext; [exact HL| |apply K; intros x _].
    + intro g. unfold step_of, after. destruct (C27_constant normal mvnormal paths v M a (ascalar t) (ascalar dt) g [] M_ok eq_refl Ha) as (zz & g' & dz & EN & Dz & S & Hz).
      cbn [app] in EN, S, Hz. rewrite EN. unfold at_step. rewrite EV, Dz. do 3 f_equal. rewrite W, csum_swp.
      replace ((v ++ [paths]) ++ [M])%list with (v ++ [paths; M])%list by (rewrite <- app_assoc; reflexivity).
      rewrite (csum_nd_app _ [paths; M]), (csum_nd_app _ [paths]). apply csum_ext. intros r Hr. rewrite nd2_sum, csum_nd_1. apply csum_ext. intros j Hj. apply csum_ext. intros m Hm.
      apply in_ndindex in Hr. apply in_seq in Hj. apply in_seq in Hm.
      unfold u'. rewrite <- app_assoc. cbn [app]. rewrite swp_snoc. rewrite bget_self.
      * assert (Q := Hz [] r m j ltac:(constructor) Hr ltac:(lia) ltac:(lia)). cbn [app] in Q. rewrite Q. change (bget (ascalar dt) []) with dt. fold k. rewrite RtoC_mult. ring.
      * rewrite S. apply inb_app; auto. repeat constructor; lia.
    + replace (cexp (csum (fun ix => u' ix * RtoC (dat x ix))%C (ndindex ((v ++ [paths]) ++ [M]))) * (c0 * z))%C with
        (c0 * cexp (csum (fun ix => u' ix * RtoC (dat x ix)) (ndindex ((v ++ [paths]) ++ [M]))) * z)%C by ring.
      eapply hm_ext; [exact HL| |apply H; lia]. intro g. cbv beta. ring.
Qed.
Lemma source_kind corr rho s : correlated corr rho vshape c -> source_dw normal mvnormal GNone corr rho paths vshape = Ok s ->
  exists p, s = wiener_call normal mvnormal paths vshape p /\ kind p.
Proof.
  intros HC HS. unfold source_dw, source_setup, wiener_source in HS. destruct HC as [(-> & -> & HC)|[(a & v & M & -> & EV & Ha & HC)|(a & v & n & -> & -> & EV & Ha & HC)]].
  - rewrite wiener_new_none in HS. cbn [rbind] in HS. injection HS as <-. exists PNone. split; [reflexivity|]. left. auto.
  - destruct (wiener_new vshape (IArr a) rho) as [p|e] eqn:E; [|discriminate]. cbn [rbind] in HS. injection HS as <-. exists p. split; [reflexivity|]. right.
    destruct (C29_corr vshape (IArr a) rho ltac:(discriminate)) as (_ & X & _). rewrite (X _ E). cbn [variable_param_setup]. exists a, v, M. auto.
  - destruct (C28_matrix n a Ha) as (b & B1 & B2 & B3).
    destruct (wiener_new vshape INone (IArr a)) as [p|e] eqn:E; [|discriminate]. cbn [rbind] in HS. injection HS as <-. exists p. split; [reflexivity|]. right.
    unfold wiener_new, get_corr_matrix in E. cbn [variable_param_setup get_param_shape checked param_call] in E. destruct (negb (vector_shape (shp a))); [discriminate|]. rewrite B1 in E. cbn [rbind] in E.
    destruct vshape as [|x vs]; [discriminate|]. cbn [get_param_shape] in E. destruct (_ && _); [|discriminate]. injection E as <-.
    exists b, v, (2*n)%nat. split; [reflexivity|]. split; [exact EV|]. split; [left; exact B2|]. intros i j Hi Hj. rewrite HC by auto. unfold entry. rewrite B2, B3 by auto.
    destruct (Nat.eq_dec i j), (Nat.eqb_spec i j); try lia; auto. destruct (Nat.eq_dec (i + n) j), (Nat.eqb_spec j (n + i)); try lia; auto. destruct (Nat.eq_dec (j + n) i), (Nat.eqb_spec i (n + j)); try lia; auto.
Qed.
End Source.
