(** Properties of sources without memory: shapes and empty intervals (C26), Wiener increments (C27). *)
From Coq Require Import List Arith Bool Lia ZArith Reals Lra Permutation.
From Verif Require Import Base BaseNum BaseArr BaseNd BaseIdx M_process M_source S_mc S_process S_source L_nd L_process L_process2 L_source.
Import ListNotations.
Local Open Scope R_scope.

Section Wiener.
Context {G : Type}.
Variables (normal : list nat -> G -> res (arr R) * G) (mvnormal : arr R -> list nat -> G -> res (arr R) * G).

Lemma broadcast2_ok (t dt : arr R) w : bshape (shp t) (shp dt) = Some w -> broadcast2 t dt = Ok (mkArr w (bget t), mkArr w (bget dt)).
Proof. intro E. unfold broadcast2. rewrite E. reflexivity. Qed.
Lemma ones_snoc k : repeat 1%nat k ++ [1%nat] = repeat 1%nat (S k).
Proof. induction k; simpl; f_equal; auto. Qed.

(** *** C26 *)
(** arrays of times that do not broadcast *)
Theorem C26_times paths vshape corr (t dt : arr R) g : bshape (shp t) (shp dt) = None -> wiener_call normal mvnormal paths vshape corr t dt g = (Err ValueError, g).
Proof. intro E. unfold wiener_call, broadcast2. rewrite E. reflexivity. Qed.
(** every value is a number drawn times the square root of the length of its interval *)
Lemma wiener_scaled paths vshape corr t dt g w dz g' : normal_ok normal -> bshape (shp t) (shp dt) = Some w ->
  wiener_call normal mvnormal paths vshape corr t dt g = (Ok dz, g') ->
  shp dz = w ++ vshape ++ [paths] /\ exists z, forall ix r, inb w ix -> inb (vshape ++ [paths]) r -> dat dz (ix ++ r) = dat z (ix ++ r) * sqrt (Rabs (bget dt ix)).
Proof.
  intros N E H. unfold wiener_call in H. apply dbind_ok in H. destruct H as ([t' dt'] & g1 & H1 & H). apply dres_ok in H1. destruct H1 as [H1 ->]. rewrite (broadcast2_ok t dt w E) in H1. injection H1 as <- <-.
  cbv zeta in H. cbn [shp] in H. apply dbind_ok in H. destruct H as (z & g1 & H1 & H).
  assert (Z : shp z = w ++ vshape ++ [paths]).
  { clear H. assert (G1 : forall m, dbind m (fun dz : arr R => if list_eq_dec Nat.eq_dec (shp (swap_last2 dz)) (w ++ vshape ++ [paths]) then dret (swap_last2 dz) else dfail RuntimeError) g = (Ok z, g1) -> shp z = w ++ vshape ++ [paths]).
    { intros m K. apply dbind_ok in K. destruct K as (a & g2 & _ & K). destruct (list_eq_dec Nat.eq_dec _ _) as [K1|]; [|discriminate]. apply dret_ok in K. destruct K as [-> _]. auto. }
    destruct corr; [|eapply G1; exact H1..]. destruct (N (w ++ vshape ++ [paths]) g) as (z' & g2 & E1 & E2). rewrite E1 in H1. injection H1 as <- <-. auto. }
  apply dbind_ok in H. destruct H as (e & g2 & R1 & H). apply dres_ok in R1. destruct R1 as [R1 ->]. apply dres_ok in H. destruct H as [H ->]. rewrite ones_snoc in R1.
  assert (L : List.length (vshape ++ [paths]) = S (List.length vshape)) by (rewrite app_length; simpl; lia). rewrite <- L in R1.
  destruct (scale_entries z (mkArr w (bget dt)) w (vshape ++ [paths]) eq_refl Z) as (e' & S1 & z' & S2 & S3 & S4). rewrite R1 in S1. injection S1 as <-. rewrite H in S2. injection S2 as <-.
  split; [exact S3|]. exists z. exact S4.
Qed.
Theorem C26_wiener paths vshape corr t dt g w dz g' : normal_ok normal -> bshape (shp t) (shp dt) = Some w ->
  wiener_call normal mvnormal paths vshape corr t dt g = (Ok dz, g') ->
  shp dz = w ++ vshape ++ [paths] /\ forall ix r, inb w ix -> inb (vshape ++ [paths]) r -> bget dt ix = 0 -> dat dz (ix ++ r) = 0.
Proof.
  intros N E H. destruct (wiener_scaled _ _ _ _ _ _ _ _ _ N E H) as [S [z Z]]. split; auto. intros ix r I1 I2 D. rewrite Z, D, Rabs_R0, sqrt_0 by auto. ring.
Qed.

(** *** C27 *)
(** uncorrelated: one standard normal draw for each entry *)
Theorem C27_uncorrelated paths vshape t dt g w : normal_ok normal -> bshape (shp t) (shp dt) = Some w ->
  exists z g' dz, normal (w ++ vshape ++ [paths]) g = (Ok z, g') /\ wiener_call normal mvnormal paths vshape PNone t dt g = (Ok dz, g') /\
    shp dz = w ++ vshape ++ [paths] /\
    forall ix r, inb w ix -> inb (vshape ++ [paths]) r -> dat dz (ix ++ r) = dat z (ix ++ r) * sqrt (Rabs (bget dt ix)).
Proof.
  intros N E. destruct (N (w ++ vshape ++ [paths]) g) as (z & g' & Z1 & Z2).
  destruct (scale_entries z (mkArr w (bget dt)) w (vshape ++ [paths]) eq_refl Z2) as (e & S1 & dz & S2 & S3 & S4).
  exists z, g', dz. split; [exact Z1|]. split; [|split; [exact S3|exact S4]]. rewrite app_length, Nat.add_1_r in S1.
  unfold wiener_call. apply dbind_ok. eexists. eexists. split; [apply dres_ok; split; [apply (broadcast2_ok t dt w E)|reflexivity]|]. cbv zeta. cbn [shp].
  apply dbind_ok. exists z, g'. split; [exact Z1|]. rewrite ones_snoc. apply dbind_ok. exists e, g'. split; [apply dres_ok; auto|]. apply dres_ok; auto.
Qed.
Lemma drop_paths_plain M (c : arr R) : is_matrix M c -> drop_paths c = Ok (plain c) /\ shp (plain c) = [M; M] /\ forall i j, dat (plain c) [i; j] = entry c i j.
Proof. intros [E|E]; unfold drop_paths, plain, entry; rewrite E; auto. Qed.
(** from draws with the components along the last axis *)
Lemma wiener_correlated paths v M (corr : param R) t dt g w z g' : bshape (shp t) (shp dt) = Some w -> shp z = w ++ v ++ [paths; M] -> corr <> PNone ->
  (match param_call corr, corr with
   | None, PArr cov => dbind (dres (drop_paths cov)) (fun cov => multivariate_normal mvnormal M cov (w ++ v ++ [paths]))
   | Some f, _ =>
       dbind (each (fun i =>
                dbind (dres (f (mid_time (mkArr w (bget t)) (mkArr w (bget dt)) i))) (fun cov =>
                dbind (dres (drop_paths cov)) (fun cov =>
                dbind (multivariate_normal mvnormal M cov (v ++ [paths])) (fun z =>
                dbind (dres (broadcast_to z (v ++ [paths; M]))) dret)))) (ndindex w))
             (fun l => dret (assembled nzero w (v ++ [paths; M]) l))
   | None, _ => dfail TypeError
   end) g = (Ok z, g') ->
  exists dz, wiener_call normal mvnormal paths (v ++ [M]) corr t dt g = (Ok dz, g') /\ shp dz = w ++ v ++ [M; paths] /\
    forall ix r m j, inb w ix -> inb v r -> (m < M)%nat -> (j < paths)%nat ->
      dat dz (ix ++ r ++ [m; j]) = dat z (ix ++ r ++ [j; m]) * sqrt (Rabs (bget dt ix)).
Proof.
  intros E Z NC H. assert (SW : shp (swap_last2 z) = w ++ (v ++ [M]) ++ [paths]) by (rewrite (swap_last2_shape z (w ++ v) paths M) by (rewrite Z, app_assoc; auto); rewrite <- !app_assoc; reflexivity).
  destruct (scale_entries (swap_last2 z) (mkArr w (bget dt)) w ((v ++ [M]) ++ [paths]) eq_refl SW) as (e & S1 & dz & S2 & S3 & S4).
  exists dz. split; [|split].
  - unfold wiener_call. apply dbind_ok. eexists. eexists. split; [apply dres_ok; split; [apply (broadcast2_ok t dt w E)|reflexivity]|]. cbv zeta. cbn [shp]. rewrite last_snoc, removelast_snoc.
    apply dbind_ok. exists (swap_last2 z), g'. split.
    + assert (K : forall m, m g = (Ok z, g') -> dbind m (fun dz : arr R => if list_eq_dec Nat.eq_dec (shp (swap_last2 dz)) (w ++ (v ++ [M]) ++ [paths]) then dret (swap_last2 dz) else dfail RuntimeError) g = (Ok (swap_last2 z), g')).
      { intros m K. apply dbind_ok. exists z, g'. split; auto. destruct (list_eq_dec Nat.eq_dec _ _); [reflexivity|contradiction]. }
      destruct corr; [contradiction|apply K; exact H..].
    + rewrite ones_snoc. rewrite app_length, Nat.add_1_r in S1. apply dbind_ok. exists e, g'. split; [apply dres_ok; auto|]. apply dres_ok; auto.
  - rewrite S3, <- !app_assoc. reflexivity.
  - intros ix r m j I1 I2 I3 I4. specialize (S4 ix (r ++ [m; j]) I1). cbn [shp dat] in S4. rewrite S4.
    + rewrite app_assoc, swap_last2_entry, <- app_assoc. reflexivity.
    + rewrite <- !app_assoc. apply inb_app; auto. repeat constructor; auto.
Qed.
(** constant correlations: draws with the given covariance matrix *)
Theorem C27_constant paths v M cov t dt g w : mvnormal_ok mvnormal -> bshape (shp t) (shp dt) = Some w -> is_matrix M cov ->
  exists z g' dz, mvnormal (plain cov) (w ++ v ++ [paths]) g = (Ok z, g') /\ wiener_call normal mvnormal paths (v ++ [M]) (PArr cov) t dt g = (Ok dz, g') /\
    shp dz = w ++ v ++ [M; paths] /\
    forall ix r m j, inb w ix -> inb v r -> (m < M)%nat -> (j < paths)%nat ->
      dat dz (ix ++ r ++ [m; j]) = dat z (ix ++ r ++ [j; m]) * sqrt (Rabs (bget dt ix)).
Proof.
  intros N E C. destruct (drop_paths_plain M cov C) as (D1 & D2 & D3). destruct (N M (plain cov) (w ++ v ++ [paths]) g D2) as (z & g' & Z1 & Z2).
  rewrite <- !app_assoc in Z2. cbn [app] in Z2.
  destruct (wiener_correlated paths v M (PArr cov) t dt g w z g' E) as (dz & W1 & W2 & W3); auto; [discriminate| |].
  - cbn [param_call]. apply dbind_ok. exists (plain cov), g. split; [apply dres_ok; auto|]. unfold multivariate_normal. rewrite D2. destruct (list_eq_dec Nat.eq_dec [M; M] [M; M]); [exact Z1|contradiction].
  - exists z, g', dz. auto.
Qed.
(** time dependent correlations: for each time point draws of its own, with the matrix at the middle of the interval *)
Theorem C27_variable paths v M corr f t dt g w : mvnormal_ok mvnormal -> bshape (shp t) (shp dt) = Some w -> param_call corr = Some f ->
  (forall ix, inb w ix -> exists c, f (middle t dt ix) = Ok c /\ is_matrix M c) ->
  exists zs g' dz,
    threaded (fun i g => match f (middle t dt i) with Ok c => mvnormal (plain c) (v ++ [paths]) g | Err e => (Err e, g) end) (ndindex w) g zs g' /\
    wiener_call normal mvnormal paths (v ++ [M]) corr t dt g = (Ok dz, g') /\
    shp dz = w ++ v ++ [M; paths] /\
    forall ix z r m j, In (ix, z) zs -> inb v r -> (m < M)%nat -> (j < paths)%nat ->
      dat dz (ix ++ r ++ [m; j]) = dat z (r ++ [j; m]) * sqrt (Rabs (bget dt ix)).
Proof.
  intros N E PC C. set (F := fun i g => match f (middle t dt i) with Ok c => mvnormal (plain c) (v ++ [paths]) g | Err e => (Err e, g) end).
  assert (FT : forall i g, In i (ndindex w) -> exists z g', F i g = (Ok z, g') /\ shp z = v ++ [paths; M] /\
    dbind (dres (f (mid_time (mkArr w (bget t)) (mkArr w (bget dt)) i))) (fun cov =>
                dbind (dres (drop_paths cov)) (fun cov =>
                dbind (multivariate_normal mvnormal M cov (v ++ [paths])) (fun z =>
                dbind (dres (broadcast_to z (v ++ [paths; M]))) dret))) g = (Ok (mkArr (v ++ [paths; M]) (bget z)), g')).
  { intros i g0 I. apply in_ndindex in I. destruct (C i I) as (c & F1 & F2). destruct (drop_paths_plain M c F2) as (D1 & D2 & D3). destruct (N M (plain c) (v ++ [paths]) g0 D2) as (z & g' & Z1 & Z2).
    rewrite <- app_assoc in Z2. exists z, g'. unfold F. rewrite F1. split; [exact Z1|]. split; [exact Z2|]. apply dbind_ok. exists c, g0. split; [apply dres_ok; split; auto; exact F1|].
    apply dbind_ok. exists (plain c), g0. split; [apply dres_ok; auto|]. apply dbind_ok. exists z, g'. split.
    - unfold multivariate_normal. rewrite D2. destruct (list_eq_dec Nat.eq_dec [M; M] [M; M]); [exact Z1|contradiction].
    - apply dbind_ok. eexists. exists g'. split; [apply dres_ok; split; [|reflexivity]|reflexivity]. unfold broadcast_to. cbn [app] in Z2. rewrite Z2, can_refl. reflexivity. }
  destruct (threaded_total F (ndindex w) (fun i g I => let '(ex_intro _ z (ex_intro _ g' (conj H _))) := FT i g I in ex_intro _ z (ex_intro _ g' H)) g) as (zs & g' & T).
  set (l := map (fun p => (fst p, mkArr (v ++ [paths; M]) (bget (snd p)))) zs).
  assert (EL : each (fun i =>
                dbind (dres (f (mid_time (mkArr w (bget t)) (mkArr w (bget dt)) i))) (fun cov =>
                dbind (dres (drop_paths cov)) (fun cov =>
                dbind (multivariate_normal mvnormal M cov (v ++ [paths])) (fun z =>
                dbind (dres (broadcast_to z (v ++ [paths; M]))) dret)))) (ndindex w) g = (Ok l, g')).
  { apply each_threaded. unfold l. clear l. induction T as [g|i q g b g1 r g2 T1 T2 IH]; [constructor|]. cbn [map fst snd]. econstructor; [|apply IH; intros; apply FT; right; auto].
    destruct (FT i g (or_introl eq_refl)) as (z & g3 & Z1 & _ & Z2). rewrite T1 in Z1. injection Z1 as <- <-. exact Z2. }
  assert (LF : map fst l = ndindex w) by (unfold l; rewrite map_map; cbn [fst]; apply (threaded_fst _ _ _ _ _ T)).
  set (z := assembled 0 w (v ++ [paths; M]) l).
  destruct (wiener_correlated paths v M corr t dt g w z g' E) as (dz & W1 & W2 & W3); [reflexivity|intro K; rewrite K in PC; discriminate| |].
  - rewrite PC. apply dbind_ok. exists l, g'. split; [exact EL|reflexivity].
  - exists zs, g', dz. split; [exact T|]. split; [exact W1|]. split; [exact W2|]. intros ix zi r m j I1 I2 I3 I4.
    assert (IX : inb w ix). { apply in_ndindex. rewrite <- (threaded_fst _ _ _ _ _ T). apply in_map_iff. exists (ix, zi). auto. }
    rewrite W3 by auto. f_equal. destruct (assembled_entry 0 w (v ++ [paths; M]) l ix (r ++ [j; m]) LF IX) as (a & A1 & A2). unfold z. rewrite A2.
    unfold l in A1. apply in_map_iff in A1. destruct A1 as [[i zj] [A3 A4]]. injection A3 as -> <-. cbn [snd].
    assert (ND : NoDup (map fst zs)) by (rewrite (threaded_fst _ _ _ _ _ T); apply NoDup_ndindex).
    assert (zj = zi) as ->. { pose proof (find_fst zs ix zj ND A4) as K1. pose proof (find_fst zs ix zi ND I1) as K2. congruence. }
    destruct (threaded_in _ _ _ _ _ T _ _ I1) as (g1 & g2 & K). destruct (FT ix g1) as (z' & g3 & K1 & K2 & _); [apply in_ndindex; auto|]. rewrite K in K1. injection K1 as <- _.
    assert (IB : inb (v ++ [paths; M]) (r ++ [j; m])) by (apply inb_app; auto; constructor; auto; constructor; auto; constructor).
    unfold bget. cbn [shp dat]. rewrite K2, !(bidx_id (v ++ [paths; M]) (r ++ [j; m]) IB). reflexivity.
Qed.

(** so that, if draws have the covariance they are asked for, increments have covariance corr*|dt|.  E is any expectation,
    and the generator depends on the outcome o *)
Section Covariance.
Variables (Omega : Type) (E : (Omega -> R) -> R) (g : Omega -> G).
Hypothesis E_ext : forall X Y, (forall o, X o = Y o) -> E X = E Y.
Hypothesis E_scale : forall a X, E (fun o => a * X o) = a * E X.
Lemma scaled_product (X Y Z1 Z2 : Omega -> R) h c : (forall o, X o = Z1 o * sqrt (Rabs h)) -> (forall o, Y o = Z2 o * sqrt (Rabs h)) -> E (fun o => Z1 o * Z2 o) = c ->
  E (fun o => X o * Y o) = c * Rabs h.
Proof.
  intros HX HY HZ. rewrite (E_ext _ (fun o => Rabs h * (Z1 o * Z2 o))).
  - rewrite E_scale, HZ. ring.
  - intro o. rewrite HX, HY. transitivity (Z1 o * Z2 o * (sqrt (Rabs h) * sqrt (Rabs h))); [ring|]. rewrite sqrt_sqrt by apply Rabs_pos. ring.
Qed.
Theorem C27_covariance paths v M cov t dt w z g' ix r m n j : mvnormal_ok mvnormal -> bshape (shp t) (shp dt) = Some w -> is_matrix M cov ->
  inb w ix -> inb v r -> (m < M)%nat -> (n < M)%nat -> (j < paths)%nat ->
  (forall o, mvnormal (plain cov) (w ++ v ++ [paths]) (g o) = (Ok (z o), g' o)) ->
  E (fun o => dat (z o) (ix ++ r ++ [j; m]) * dat (z o) (ix ++ r ++ [j; n])) = entry cov m n ->
  exists dz, (forall o, wiener_call normal mvnormal paths (v ++ [M]) (PArr cov) t dt (g o) = (Ok (dz o), g' o)) /\
    E (fun o => dat (dz o) (ix ++ r ++ [m; j]) * dat (dz o) (ix ++ r ++ [n; j])) = entry cov m n * Rabs (bget dt ix).
Proof.
  intros N B C I1 I2 I3 I4 I5 Z EZ.
  exists (fun o => match fst (wiener_call normal mvnormal paths (v ++ [M]) (PArr cov) t dt (g o)) with Ok a => a | Err _ => mkArr [] (fun _ => 0) end).
  assert (K : forall o, exists dz, wiener_call normal mvnormal paths (v ++ [M]) (PArr cov) t dt (g o) = (Ok dz, g' o) /\
    forall m, (m < M)%nat -> dat dz (ix ++ r ++ [m; j]) = dat (z o) (ix ++ r ++ [j; m]) * sqrt (Rabs (bget dt ix))).
  { intro o. destruct (C27_constant paths v M cov t dt (g o) w N B C) as (z' & g1 & dz & Z1 & W1 & W2 & W3). rewrite Z in Z1. injection Z1 as <- <-. exists dz. split; [exact W1|]. intros k K. apply W3; auto. }
  split.
  - intro o. destruct (K o) as (dz & W & _). rewrite W. reflexivity.
  - apply scaled_product with (Z1 := fun o => dat (z o) (ix ++ r ++ [j; m])) (Z2 := fun o => dat (z o) (ix ++ r ++ [j; n])); auto; intro o; destruct (K o) as (dz & W & W3); rewrite W; cbn [fst]; auto.
Qed.
End Covariance.
End Wiener.
Example C27_ex : exists dz, fst (wiener_call (fun s (g : nat) => (Ok (mkArr s (fun ix => INR (g + nth 1 ix 0%nat))), (g + 1)%nat)) (fun c s g => (Err ValueError, g)) 2 [] PNone (vec [0; 1]) (vec [4; 0]) 3%nat) = Ok dz /\
  shp dz = [2; 2]%nat /\ dat dz [0; 1]%nat = 8 /\ dat dz [1; 1]%nat = 0.
Proof.
  destruct (C27_uncorrelated (fun s (g : nat) => (Ok (mkArr s (fun ix => INR (g + nth 1 ix 0%nat))), (g + 1)%nat)) (fun c s g => (Err ValueError, g)) 2 [] (vec [0; 1]) (vec [4; 0]) 3%nat [2]%nat) as (z & g' & dz & Z & W & S & D).
  - intros s g. eauto.
  - reflexivity.
  - injection Z as <- _. exists dz. rewrite W. cbn [fst]. split; [reflexivity|]. split; [exact S|]. split.
    + etransitivity; [apply (D [0%nat] [1%nat]); repeat constructor|]. cbn. replace (Rabs 4) with (2*2) by (rewrite Rabs_right; lra). rewrite sqrt_square by lra. lra.
    + etransitivity; [apply (D [1%nat] [1%nat]); repeat constructor|]. cbn. rewrite Rabs_R0, sqrt_0. lra.
Qed.
Print Assumptions C26_times.
Print Assumptions C26_wiener.
Print Assumptions C27_uncorrelated.
Print Assumptions C27_constant.
Print Assumptions C27_variable.
Print Assumptions C27_covariance.

(** *** C26, Poisson sources *)
Section Poisson.
Context {G : Type}.
Variable (poisson : arr R -> list nat -> G -> res (arr Z) * G).
Lemma poisson_step paths vshape lam t dt (w ix : list nat) g1 b g2 : poisson_ok poisson ->
  dbind (match param_call lam, lam with Some f, _ => dres (f (mid_time (mkArr w (bget t)) (mkArr w (bget dt)) ix)) | None, PArr a => dret a | None, _ => dfail TypeError end)
    (fun L => dbind (poisson (amap (fun l => nmul (nabs (dat (mkArr w (bget dt)) ix)) l) L) (vshape ++ [paths]))
    (fun n => dres (broadcast_to (amap (fun k => (nsign (dat (mkArr w (bget dt)) ix) * k)%Z) n) (vshape ++ [paths])))) g1 = (Ok b, g2) ->
  exists L n, intensity lam (middle t dt ix) = Ok L /\ poisson (amap (Rmult (Rabs (bget dt ix))) L) (vshape ++ [paths]) g1 = (Ok n, g2) /\ shp n = vshape ++ [paths] /\
    (forall r, inb (vshape ++ [paths]) r -> (0 <= dat n r)%Z) /\
    forall r, inb (vshape ++ [paths]) r -> bget b r = (nsign (V := R) (bget dt ix) * dat n r)%Z.
Proof.
  intros N K1. apply dbind_ok in K1. destruct K1 as (L & g3 & L1 & K1). apply dbind_ok in K1. destruct K1 as (n & g4 & P & K1). apply dres_ok in K1. destruct K1 as [K1 ->].
  assert (L1' : intensity lam (middle t dt ix) = Ok L /\ g3 = g1).
  { destruct lam; cbn [param_call] in L1; cbn [intensity]; [discriminate| | |]; [apply dret_ok in L1; destruct L1 as [-> ->]; auto|apply dres_ok in L1; destruct L1 as [L1 ->]; split; auto; exact L1|apply dres_ok in L1; destruct L1 as [L1 ->]; split; auto; exact L1]. }
  destruct L1' as [L1' ->]. exists L, n. split; [exact L1'|]. cbn [dat] in *. unfold amap in P at 1. change (fun ix0 => nmul (nabs (bget dt ix)) (dat L ix0)) with (fun ix0 => nabs (bget dt ix) * dat L ix0) in P. rewrite nabs_R in P.
  split; [exact P|]. destruct (N (amap (Rmult (Rabs (bget dt ix))) L) (vshape ++ [paths]) g1) as [_ N2]. destruct (N2 _ _ P) as [N3 N4]. split; [exact N3|]. split; [exact N4|]. intros r I.
  unfold broadcast_to in K1. cbn [shp amap] in K1. rewrite N3, can_refl in K1. injection K1 as <-. unfold bget at 1. cbn [shp dat]. rewrite bidx_id by auto. unfold bget at 1. cbn [shp dat amap]. rewrite N3, bidx_id by auto. reflexivity.
Qed.
(** counts are drawn, for each time point, with parameters |dt| times the intensity in the middle of the interval, and have the sign of dt *)
Theorem C26_poisson paths vshape lam t dt g w dn g' : poisson_ok poisson -> bshape (shp t) (shp dt) = Some w ->
  poisson_call poisson paths vshape lam t dt g = (Ok dn, g') ->
  shp dn = w ++ vshape ++ [paths] /\
  exists ns,
    threaded (fun i g => match intensity lam (middle t dt i) with Ok L => poisson (amap (Rmult (Rabs (bget dt i))) L) (vshape ++ [paths]) g | Err e => (Err e, g) end) (ndindex w) g ns g' /\
    forall ix n r, In (ix, n) ns -> inb (vshape ++ [paths]) r -> (0 <= dat n r)%Z /\
      dat dn (ix ++ r) = (if Rlt_dec 0 (bget dt ix) then dat n r else if Rlt_dec (bget dt ix) 0 then - dat n r else 0)%Z.
Proof.
  intros N E H. unfold poisson_call in H. apply dbind_ok in H. destruct H as ([t' dt'] & g1 & H1 & H). apply dres_ok in H1. destruct H1 as [H1 ->]. rewrite (broadcast2_ok t dt w E) in H1. injection H1 as <- <-.
  cbv zeta in H. cbn [shp] in H. apply dbind_ok in H. destruct H as (l & g1 & H1 & H). apply dret_ok in H. destruct H as [-> ->]. split; [reflexivity|]. apply each_threaded in H1.
  assert (F := threaded_fst _ _ _ _ _ H1).
  set (f := fun i => dbind _ _) in H1.
  set (h := fun i g => match intensity lam (middle t dt i) with Ok L => poisson (amap (Rmult (Rabs (bget dt i))) L) (vshape ++ [paths]) g | Err e => (Err e, g) end).
  assert (X : exists ns, threaded h (ndindex w) g ns g1 /\ Forall2 (fun p q => fst p = fst q /\ forall r, inb (vshape ++ [paths]) r -> (0 <= dat (snd q) r)%Z /\ bget (snd p) r = (nsign (V := R) (bget dt (fst p)) * dat (snd q) r)%Z) l ns).
  { clear F. induction H1 as [g|i q g b g1 r g2 T1 T2 IH]; [exists []; split; constructor|]. destruct IH as (ns & IH1 & IH2).
    destruct (poisson_step paths vshape lam t dt w i g b g1 N T1) as (L & n & P1 & P2 & P3 & P4 & P5). exists ((i, n) :: ns). split.
    - econstructor; [|exact IH1]. unfold h. rewrite P1. exact P2.
    - constructor; auto. }
  destruct X as (ns & X1 & X2). exists ns. split; [exact X1|]. intros ix n r I1 I2.
  assert (IX : inb w ix). { apply in_ndindex. rewrite <- (threaded_fst _ _ _ _ _ X1). apply in_map_iff. exists (ix, n). auto. }
  destruct (assembled_entry 0%Z w (vshape ++ [paths]) l ix r F IX) as (a & A1 & A2). rewrite A2.
  assert (ND : NoDup (map fst l)) by (rewrite F; apply NoDup_ndindex). clear - X2 A1 I1 ND I2.
  induction X2 as [|[i b] [k c] l ns [Y1 Y2] X2 IH]; [contradiction|]. cbn [fst snd] in *. subst k. inversion ND; subst.
  assert (FF : map fst l = map fst ns) by (clear - X2; induction X2 as [|x y l ns [H1 _] _ IH]; simpl; congruence).
  destruct A1 as [A1|A1], I1 as [I1|I1].
  - injection A1 as -> ->. injection I1 as ->. destruct (Y2 r I2) as [Y3 Y4]. split; [exact Y3|]. rewrite Y4, nsign_R. destruct (Rlt_dec 0 (bget dt ix)); [lia|]. destruct (Rlt_dec (bget dt ix) 0); lia.
  - injection A1 as -> ->. exfalso. apply H1. rewrite FF. apply in_map_iff. exists (ix, n). auto.
  - injection I1 as -> ->. exfalso. apply H1. apply in_map_iff. exists (ix, a). auto.
  - apply IH; auto.
Qed.
Theorem C26_poisson_zero paths vshape lam t dt g w dn g' ix r : poisson_ok poisson -> bshape (shp t) (shp dt) = Some w ->
  poisson_call poisson paths vshape lam t dt g = (Ok dn, g') -> inb w ix -> inb (vshape ++ [paths]) r ->
  (bget dt ix = 0 -> dat dn (ix ++ r) = 0%Z) /\ (0 < bget dt ix -> (0 <= dat dn (ix ++ r))%Z) /\ (bget dt ix < 0 -> (dat dn (ix ++ r) <= 0)%Z).
Proof.
  intros N E H I1 I2. destruct (C26_poisson _ _ _ _ _ _ _ _ _ N E H) as (_ & ns & T & D).
  assert (X : In ix (map fst ns)) by (rewrite (threaded_fst _ _ _ _ _ T); apply in_ndindex; auto). apply in_map_iff in X. destruct X as [[i n] [X1 X2]]. simpl in X1. subst i.
  destruct (D ix n r X2 I2) as [D1 ->]. destruct (Rlt_dec 0 (bget dt ix)), (Rlt_dec (bget dt ix) 0); repeat split; intros; try lia; exfalso; lra.
Qed.
(** evaluation succeeds if the intensity can be computed, is not negative and broadcasts to the shape of the source *)
Theorem C26_poisson_succeeds paths vshape lam t dt g w : poisson_ok poisson -> bshape (shp t) (shp dt) = Some w ->
  (forall ix, inb w ix -> exists L, intensity lam (middle t dt ix) = Ok L /\ can (shp L) (vshape ++ [paths]) = true /\ forall r, inb (shp L) r -> 0 <= dat L r) ->
  exists dn g', poisson_call poisson paths vshape lam t dt g = (Ok dn, g').
Proof.
  intros N E H. unfold poisson_call.
  destruct (threaded_total (fun i => dbind (match param_call lam, lam with Some f, _ => dres (f (mid_time (mkArr w (bget t)) (mkArr w (bget dt)) i)) | None, PArr a => dret a | None, _ => dfail TypeError end)
    (fun L => dbind (poisson (amap (fun l => nmul (nabs (dat (mkArr w (bget dt)) i)) l) L) (vshape ++ [paths]))
    (fun n => dres (broadcast_to (amap (fun k => (nsign (dat (mkArr w (bget dt)) i) * k)%Z) n) (vshape ++ [paths]))))) (ndindex w)) with (g := g) as (r & g' & T).
  - intros i g0 I. apply in_ndindex in I. destruct (H i I) as (L & H1 & H2 & H3). destruct (N (amap (fun l => nmul (nabs (dat (mkArr w (bget dt)) i)) l) L) (vshape ++ [paths]) g0) as [N1 N2].
    destruct (N1 H2) as (n & g1 & P). { intros r I2. cbn [amap dat shp] in *. rewrite nabs_R. apply Rmult_le_pos; [apply Rabs_pos|]. apply H3. auto. }
    destruct (N2 _ _ P) as [N3 _]. eexists. exists g1. apply dbind_ok. exists L, g0. split.
    + destruct lam; cbn [param_call]; cbn [intensity] in H1; [discriminate|injection H1 as <-; reflexivity|apply dres_ok; split; auto; exact H1|apply dres_ok; split; auto; exact H1].
    + apply dbind_ok. exists n, g1. split; [exact P|]. apply dres_ok. split; [|reflexivity]. unfold broadcast_to. cbn [shp amap]. rewrite N3, can_refl. reflexivity.
  - exists (assembled 0%Z w (vshape ++ [paths]) r), g'. apply dbind_ok. eexists. eexists. split; [apply dres_ok; split; [apply (broadcast2_ok t dt w E)|reflexivity]|]. cbv zeta. cbn [shp].
    apply dbind_ok. exists r, g'. split; [apply each_threaded; exact T|reflexivity].
Qed.
End Poisson.
Example C26_ex : exists dn, fst (poisson_call (fun L s (g : nat) => (Ok (mkArr s (fun ix => Z.of_nat (g + nth 0 ix 0%nat))), S g)) 2 [] (PArr (ascalar 1)) (vec [0; 1; 2]) (vec [-1; 0; 3]) 5%nat) = Ok dn /\
  shp dn = [3; 2]%nat /\ dat dn [0; 1]%nat = (-6)%Z /\ dat dn [1; 1]%nat = 0%Z /\ dat dn [2; 0]%nat = 7%Z.
Proof.
  eexists. split; [reflexivity|]. split; [reflexivity|]. cbn -[nsign]. rewrite !nsign_R. destruct (Rlt_dec 0 (-1)), (Rlt_dec (-1) 0), (Rlt_dec 0 0), (Rlt_dec 0 3); try (exfalso; lra). repeat split.
Qed.
Print Assumptions C26_poisson.
Print Assumptions C26_poisson_zero.
Print Assumptions C26_poisson_succeeds.
