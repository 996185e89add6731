(** Lemmas on statistics of antithetic paths. *)
From Coq Require Import String List Arith Bool ZArith Reals Lra Lia.
From Coquelicot Require Import Coquelicot.
From Verif Require Import Base BaseNum BaseOrd BaseArr BaseNd BaseIdx M_paths M_sde M_process S_process L_nd L_process P_process P_process3 M_mc S_mc L_mc P_mc
  S_rv S_law S_euler S_gval L_gval L_gval2 L_gop L_cirrun S_mean L_conv L_cok L_tame L_meanlaw L_est M_result S_stat L_stat S_pair.
Import ListNotations.
Local Open Scope R_scope.
Local Notation len := List.length.

(** *** products of monotone functions *)
Lemma opposite f h : tame f -> tame h -> (forall x y, (f x - f y) * (h x - h y) <= 0) -> EN (fun z => f z * h z) <= EN f * EN h.
Proof.
  intros TF TH M. set (a := EN f). set (b := EN h). set (c := EN (fun z => f z * h z)).
  assert (T1 := tame_mult _ _ TF TH).
  assert (ST : forall x, f x * h x + ((- f x) * b + ((- h x) * a + c)) <= 0).
  { intro x. rewrite <- (EN_const 0).
    assert (Q : EN (fun y => f x * h x + ((- f x) * h y + ((- h x) * f y + f y * h y))) = f x * h x + ((- f x) * b + ((- h x) * a + c))).
    { rewrite (EN_plus (fun _ => f x * h x)), EN_const; [|apply tame_const|repeat apply tame_plus; try apply tame_scal; auto].
      rewrite (EN_plus (fun y => - f x * h y)), EN_scal; [|auto|apply tame_scal; auto|apply tame_plus; [apply tame_scal|]; auto].
      rewrite (EN_plus (fun y => - h x * f y)), EN_scal; [reflexivity|auto|apply tame_scal; auto|auto]. }
    rewrite <- Q. apply EN_le.
    - repeat apply tame_plus; try apply tame_scal; auto. apply tame_const.
    - apply tame_const.
    - intro y. specialize (M x y). lra. }
  assert (Q : EN (fun x => f x * h x + (((- b) * f x) + (((- a) * h x) + c))) = c + ((- b) * a + ((- a) * b + c))).
  { rewrite (EN_plus (fun x => f x * h x)); [|auto|repeat apply tame_plus; try apply tame_scal; auto; apply tame_const]. fold c.
    rewrite (EN_plus (fun x => - b * f x)), EN_scal; [|auto|apply tame_scal; auto|apply tame_plus; [apply tame_scal; auto|apply tame_const]].
    rewrite (EN_plus (fun x => - a * h x)), EN_scal, EN_const; [reflexivity|auto|apply tame_scal; auto|apply tame_const]. }
  assert (LE : EN (fun x => f x * h x + (((- b) * f x) + (((- a) * h x) + c))) <= EN (fun _ => 0)).
  { apply EN_le; [|apply tame_const|intro x; specialize (ST x); lra]. repeat apply tame_plus; try apply tame_scal; auto. apply tame_const. }
  rewrite Q, EN_const in LE. lra.
Qed.

(** *** functions of a normal variate and of its opposite *)
Section Reflect.
Variables (phi : R -> R) (m s : R).
Hypothesis T : tame phi.
Let psi x := phi (2*m - x).
Lemma tame_reflect : tame psi.
Proof using T. eapply tame_ext; [|apply (tame_aff phi (2*m) (-1) T)]. intro x. unfold psi. cbv beta. f_equal. ring. Qed.
Lemma EN_reflect : EN (fun z => psi (m + s*z)) = EN (fun z => phi (m + s*z)).
Proof using T. rewrite <- (EN_opp (fun z => phi (m + s*z))) by (apply tame_aff, T). apply EN_ext. intro z. unfold psi. f_equal. ring. Qed.
Let A := EN (fun z => phi (m + s*z)).
Let B := EN (fun z => phi (m + s*z) * phi (m + s*z)).
Let C := EN (fun z => phi (m + s*z) * psi (m + s*z)).
Lemma reflect_half : EN (fun z => (phi (m + s*z) + psi (m + s*z)) / 2) = A.
Proof using T.
  rewrite (EN_ext _ (fun z => /2 * (phi (m + s*z) + psi (m + s*z)))) by (intro; field).
  rewrite EN_scal, EN_plus, EN_reflect; try (apply tame_aff; first [exact T|exact tame_reflect]); [fold A; field|].
  apply tame_plus; apply tame_aff; [exact T|exact tame_reflect].
Qed.
Lemma EN_reflect2 : EN (fun z => psi (m + s*z) * psi (m + s*z)) = B.
Proof using T.
  unfold B. rewrite <- (EN_opp (fun z => phi (m + s*z) * phi (m + s*z))).
  - apply EN_ext. intro z. unfold psi. replace (2*m - (m + s*z)) with (m + s * - z) by ring. reflexivity.
  - apply (tame_aff (fun x => phi x * phi x)), tame_mult; exact T.
Qed.
Lemma reflect_half2 : EN (fun z => (phi (m + s*z) + psi (m + s*z)) / 2 * ((phi (m + s*z) + psi (m + s*z)) / 2)) = (B + C) / 2.
Proof using T.
  assert (TP := tame_reflect). assert (T1 := tame_aff _ m s (tame_mult _ _ T T)). assert (T2 := tame_aff _ m s (tame_mult _ _ TP TP)). assert (T3 := tame_aff _ m s (tame_mult _ _ T TP)). cbv beta in T1, T2, T3.
  rewrite (EN_ext _ (fun z => /4 * (phi (m + s*z) * phi (m + s*z)) + (/4 * (psi (m + s*z) * psi (m + s*z)) + /2 * (phi (m + s*z) * psi (m + s*z))))) by (intro; field).
  rewrite EN_plus, EN_plus, !EN_scal, EN_reflect2; auto using tame_scal, tame_plus. fold B C. field.
Qed.
Lemma reflect_squares : EN (fun z => phi (m + s*z) * phi (m + s*z) + psi (m + s*z) * psi (m + s*z)) = 2 * B.
Proof using T.
  assert (TP := tame_reflect). assert (T1 := tame_aff _ m s (tame_mult _ _ T T)). assert (T2 := tame_aff _ m s (tame_mult _ _ TP TP)). cbv beta in T1, T2.
  rewrite EN_plus, EN_reflect2; auto. fold B. ring.
Qed.
Lemma reflect_monotone : monotone phi -> C <= A^2.
Proof using T.
  intro M. unfold C, A. rewrite <- Rsqr_pow2. unfold Rsqr. rewrite <- EN_reflect at 2.
  apply (opposite (fun z => phi (m + s*z)) (fun z => psi (m + s*z))); [apply tame_aff, T|apply tame_aff, tame_reflect|].
  intros x y. unfold psi. replace (2*m - (m + s*x)) with (m - s*x) by ring. replace (2*m - (m + s*y)) with (m - s*y) by ring.
  destruct (Rle_dec (s*x) (s*y)) as [H|H]; destruct M as [M|M].
  - assert (M1 := M (m + s*x) (m + s*y) ltac:(lra)). assert (M2 := M (m - s*y) (m - s*x) ltac:(lra)). nra.
  - assert (M1 := M (m + s*x) (m + s*y) ltac:(lra)). assert (M2 := M (m - s*y) (m - s*x) ltac:(lra)). nra.
  - assert (M1 := M (m + s*y) (m + s*x) ltac:(lra)). assert (M2 := M (m - s*x) (m - s*y) ltac:(lra)). nra.
  - assert (M1 := M (m + s*y) (m + s*x) ltac:(lra)). assert (M2 := M (m - s*x) (m - s*y) ltac:(lra)). nra.
Qed.
End Reflect.

(** *** sums over independent paths *)
Lemma rsum_const_one {A} c (w : list A) l : rsum (fun p : R * (A -> R -> R) => fst p * rprod (fun ix => snd p ix (l ix)) w) [(c, fun _ _ => 1)] = c.
Proof. unfold rsum. cbn [map fold_right fst snd]. rewrite rprod_one. ring. Qed.
Section Mixed.
Context {G : Type}.
Variables (E : (G -> R) -> R) (w : list nat) (X : G -> list nat -> R) (mu v : list nat -> R).
Hypothesis EE : forall f h, (forall g, f g = h g) -> E f = E h.
Hypothesis SUM : forall K u f, (forall k ix, (k < K)%nat -> inb w ix -> cok (f k ix)) ->
  E (fun g => rsum (fun k => u k * rprod (fun ix => f k ix (X g ix)) (ndindex w)) (seq 0 K)) =
  rsum (fun k => u k * rprod (fun ix => EN (fun z => f k ix (mu ix + sqrt (v ix) * z))) (ndindex w)) (seq 0 K).
Variables (P : nat) (spot : nat -> list nat) (q h : R -> R) (m0 v0 : R).
Hypothesis IS : forall j, (j < P)%nat -> inb w (spot j) /\ mu (spot j) = m0 /\ v (spot j) = v0.
Hypothesis SI : forall i j, (i < P)%nat -> (j < P)%nat -> spot i = spot j -> i = j.
Hypothesis TQ : cok q.
Hypothesis TF : cok h.
Hypothesis TF2 : cok (fun x => h x * h x).
Let Q := EN (fun z => q (m0 + sqrt v0 * z)).
Let A := EN (fun z => h (m0 + sqrt v0 * z)).
Let B := EN (fun z => h (m0 + sqrt v0 * z) * h (m0 + sqrt v0 * z)).
Let dec := list_eq_dec Nat.eq_dec.
Let at_spot (f : R -> R) (a : list nat) (ix : list nat) (x : R) : R := if dec ix a then f x else 1.
Lemma mixed c0 c1 c2 c3 :
  E (fun g => c0 + c1 * rsum (fun j => q (X g (spot j))) (seq 0 P) + c2 * (rsum (fun j => h (X g (spot j))) (seq 0 P))^2 + c3 * rsum (fun j => h (X g (spot j))) (seq 0 P)) =
  c0 + c1 * (INR P * Q) + c2 * (INR P * B + INR P * (INR P - 1) * (A*A)) + c3 * (INR P * A).
Proof using EE SUM IS SI TQ TF TF2.
  set (l0 := [(c0, fun (_ : list nat) (_ : R) => 1)]). set (l1 := map (fun j => (c1, at_spot q (spot j))) (seq 0 P)). set (l3 := map (fun j => (c3, at_spot h (spot j))) (seq 0 P)).
  set (l2 := map (fun a : nat * nat => (c2, fun ix x => at_spot h (spot (fst a)) ix x * at_spot h (spot (snd a)) ix x)) (list_prod (seq 0 P) (seq 0 P))).
  assert (ID : forall f : R -> R, cok f -> cok (fun x => f ((fun x => x) x))) by auto.
  rewrite (EE _ (fun g => rsum (fun p => fst p * rprod (fun ix => snd p ix (X g ix)) (ndindex w)) (l0 ++ l1 ++ l2 ++ l3))).
  - rewrite (sum_list E w X (fun x => x) mu v EE SUM).
    + rewrite !rsum_app. unfold l0, l1, l2, l3. rewrite !rsum_map, rsum_prod. cbn [fst snd]. unfold at_spot.
      rewrite (rsum_ext (fun j => c1 * _) (fun _ => c1 * Q)).
      2: { intros j Hj. apply in_seq in Hj. unfold dec. rewrite (one_mean w (fun x => x) mu v P spot q m0 v0 IS j) by lia. reflexivity. }
      rewrite (rsum_ext (fun j => c3 * _) (fun _ => c3 * A)).
      2: { intros j Hj. apply in_seq in Hj. unfold dec. rewrite (one_mean w (fun x => x) mu v P spot h m0 v0 IS j) by lia. reflexivity. }
      rewrite (rsum_ext (fun i => rsum _ (seq 0 P)) (fun i => c2 * (INR P * (A*A) + (B - A*A)))).
      * rewrite !rsum_const, seq_length. unfold rsum. cbn [map fold_right fst snd]. rewrite (rprod_ext _ (fun _ => 1)) by (intros; apply EN_const). rewrite rprod_one. ring.
      * intros i Hi. apply in_seq in Hi. rewrite (rsum_ext _ (fun j => c2*(A*A) + (c2*(B - A*A)) * (if Nat.eq_dec i j then 1 else 0))).
        -- rewrite rsum_plus, rsum_const, rsum_scal, seq_length, (rsum_one Nat.eq_dec (fun _ => 1)) by (try apply seq_NoDup; apply in_seq; lia). ring.
        -- intros j Hj. apply in_seq in Hj. unfold dec. rewrite (pairs_mean w (fun x => x) mu v P spot h m0 v0 IS SI i j) by lia. fold A B. destruct (Nat.eq_dec i j); ring.
    + intros p Hp ix HI. rewrite !in_app_iff in Hp. destruct Hp as [Hp|[Hp|[Hp|Hp]]].
      * destruct Hp as [<-|[]]. cbn [snd]. apply cok_const.
      * unfold l1 in Hp. apply in_map_iff in Hp. destruct Hp as (j & <- & _). exact (at_cok (fun x => x) q TQ _ ix).
      * unfold l2 in Hp. apply in_map_iff in Hp. destruct Hp as (j & <- & _). exact (at_cok2 (fun x => x) h TF TF2 _ _ ix).
      * unfold l3 in Hp. apply in_map_iff in Hp. destruct Hp as (j & <- & _). exact (at_cok (fun x => x) h TF _ ix).
  - intro g. rewrite !rsum_app. unfold l0, l1, l2, l3. rewrite !rsum_map, rsum_prod. cbn [fst snd]. set (S := rsum (fun j => h (X g (spot j))) (seq 0 P)). unfold at_spot, dec.
    rewrite (rsum_ext (fun j => c1 * _) (fun j => c1 * q (X g (spot j)))).
    2: { intros j Hj. apply in_seq in Hj. rewrite (at_prod w X q) by (apply IS; lia). reflexivity. }
    rewrite (rsum_ext (fun j => c3 * _) (fun j => c3 * h (X g (spot j)))).
    2: { intros j Hj. apply in_seq in Hj. rewrite (at_prod w X h) by (apply IS; lia). reflexivity. }
    rewrite (rsum_ext (fun i => rsum _ (seq 0 P)) (fun i => (c2*S) * h (X g (spot i)))).
    + rewrite !rsum_scal. fold S. rewrite (rsum_const_one c0 (ndindex w) (X g)). ring.
    + intros i Hi. apply in_seq in Hi. rewrite (rsum_ext _ (fun j => (c2*h (X g (spot i))) * h (X g (spot j)))); [rewrite rsum_scal; fold S; ring|].
      intros j Hj. apply in_seq in Hj. rewrite rprod_mult, !(at_prod w X h) by (apply IS; lia). ring.
Qed.
End Mixed.

(** *** montecarlo objects *)
Lemma rsum_double (f : nat -> R) n : rsum f (seq 0 (2*n)) = rsum (fun j => f j + f (n + j)%nat) (seq 0 n).
Proof.
  replace (2*n)%nat with (n + n)%nat by lia. rewrite seq_app, rsum_app, Nat.add_0_l. rewrite rsum_plus. f_equal.
  assert (Q : forall k l, rsum f (seq (k + l) n) = rsum (fun j => f (k + j)%nat) (seq l n)).
  { induction n as [|m IH]; intros k l; [reflexivity|]. cbn [seq]. unfold rsum in *. cbn [map fold_right]. f_equal. specialize (IH k (S l)). rewrite Nat.add_succ_r in IH. exact IH. }
  specialize (Q n 0%nat). rewrite Nat.add_0_r in Q. exact Q.
Qed.
Lemma rsum_dev (y : nat -> R) P : (0 < P)%nat -> let m := rsum y (seq 0 P) / INR P in rsum (fun j => (y j - m)^2) (seq 0 P) = rsum (fun j => y j * y j) (seq 0 P) - INR P * m^2.
Proof.
  intros HP m. assert (PP : 0 < INR P) by (apply lt_0_INR; exact HP).
  rewrite (rsum_ext _ (fun j => y j * y j + ((- 2 * m) * y j + m * m))) by (intros; ring). rewrite rsum_plus, rsum_plus, rsum_const, rsum_scal, seq_length.
  replace (rsum y (seq 0 P)) with (INR P * m) by (unfold m; field; lra). ring.
Qed.
Section One.
Variables (use : string) (auto : string -> list R -> option (R * R) -> res nat) (bins : bspec R) (range : option (R * R)) (vshape r : list nat) (X : arr R) (y : nat -> R) (P : nat).
Hypothesis BF : bins_for vshape bins.
Hypothesis OK : sample_ok use vshape (X, (-1)%Z).
Hypothesis HR : inb vshape r.
Hypothesis DA : data_of use [(X, (-1)%Z)] r = map y (seq 0 P).
Lemma mcu_is : mcu_done use auto bins range X ->
  mcu_mean_at use auto bins range X r = rsum y (seq 0 P) / INR P /\
  ((2 <= P)%nat -> mcu_var_at use auto bins range X r = rsum (fun j => (y j - rsum y (seq 0 P) / INR P)^2) (seq 0 P) / INR P /\
    mcu_stderr_at use auto bins range X r = sqrt (rsum (fun j => (y j - rsum y (seq 0 P) / INR P)^2) (seq 0 P) / INR P / (INR P - 1))).
Proof using BF OK HR DA.
  intros (n & a & E). assert (NE : [(X, (-1)%Z)] <> []) by discriminate. assert (FS : List.Forall (sample_ok use vshape) [(X, (-1)%Z)]) by (repeat constructor; exact OK).
  destruct (C44_statistics auto use bins range vshape _ n a BF NE FS E) as (mean & var & std & skew & kurt & EM & EV & _ & _ & _ & _ & _ & _ & _ & _ & D).
  destruct (C44_stderr auto use bins range vshape _ n a BF NE FS E) as [_ SE].
  specialize (D r HR). cbv zeta in D. rewrite DA in D. destruct D as (LN & DM & _ & D1 & D2). rewrite map_length, seq_length in LN. subst n.
  unfold mcu_mean_at, mcu_var_at, mcu_stderr_at. rewrite E. cbn [fst snd]. rewrite EM, EV. cbn [array_at].
  assert (AV : forall h : nat -> R, S_mc.average (map h (seq 0 P)) = rsum h (seq 0 P) / INR P).
  { intro h. rewrite <- nmean_average. unfold nmean. rewrite nsum_R, map_length, seq_length. reflexivity. }
  assert (CV : central 2 (map y (seq 0 P)) = rsum (fun j => (y j - rsum y (seq 0 P) / INR P)^2) (seq 0 P) / INR P).
  { unfold central. rewrite map_map, AV. rewrite AV. reflexivity. }
  split; [rewrite DM; apply AV|]. intro P2. split.
  - destruct (D2 P2) as [-> _]. exact CV.
  - destruct (SE P2) as (e & EE & _ & ES). rewrite EE. rewrite (ES r HR), DA, CV. reflexivity.
Qed.
End One.
Section Sample.
Variables (p : proc R) (vshape : list nat) (n i : nat) (r : list nat) (f : R -> R) (y : nat -> R).
Hypothesis CP : comp p = (vshape ++ [(2*n)%nat])%list.
Hypothesis HR : inb vshape r.
Hypothesis HP : (0 < n)%nat.
Hypothesis HX : forall j, (j < 2*n)%nat -> f (dat (px p) (i :: r ++ [j])) = y j.
Let X := at_point f p i.
Lemma batch_pair : batch vshape (2*n) (X, (-1)%Z).
Proof using CP.
  clear HX HR HP. exists (len vshape). unfold axis_of, X, at_point. cbn [fst snd shp]. rewrite CP. split.
  - destruct (vshape ++ [(2*n)%nat])%list eqn:Q; [destruct vshape; discriminate|]. rewrite <- Q. rewrite app_length. cbn [List.length]. rewrite norm_last. reflexivity.
  - destruct (vshape ++ [(2*n)%nat])%list eqn:Q; [destruct vshape; discriminate|]. rewrite <- Q. split.
    + unfold del_at. rewrite firstn_app, Nat.sub_diag, firstn_all. cbn [firstn]. rewrite app_nil_r, skipn_all2 by (rewrite app_length; cbn; lia). apply app_nil_r.
    + rewrite app_nth2, Nat.sub_diag by lia. reflexivity.
Qed.
Lemma pair_ok use : use = "all"%string \/ use = "even"%string -> sample_ok use vshape (X, (-1)%Z).
Proof using CP HP.
  clear HX HR. intro U. exists (2*n)%nat. split; [exact batch_pair|]. split; [lia|]. destruct U as [->| ->]; [left; reflexivity|right]. split; [left; reflexivity|]. rewrite Nat.even_mul. reflexivity.
Qed.
Lemma values_pair : values (X, (-1)%Z) r = map y (seq 0 (2*n)).
Proof using CP HX HR.
  clear HP. unfold values, axis_of, X, at_point. cbn [fst snd shp]. rewrite CP.
  destruct (vshape ++ [(2*n)%nat])%list eqn:Q; [destruct vshape; discriminate|]. rewrite <- Q. rewrite app_length. cbn [List.length]. rewrite norm_last.
  rewrite app_nth2, Nat.sub_diag by lia. cbn [nth]. apply map_ext_in. intros j Hj. apply in_seq in Hj. cbn [dat]. rewrite <- HX by lia. do 3 f_equal.
  unfold ins_at. rewrite <- (inb_length _ _ HR), firstn_all, skipn_all. reflexivity.
Qed.
Lemma data_all : data_of "all" [(X, (-1)%Z)] r = map y (seq 0 (2*n)).
Proof using CP HX HR. unfold data_of. cbn [flat_map]. rewrite app_nil_r, values_pair. reflexivity. Qed.
Lemma data_even : data_of "even" [(X, (-1)%Z)] r = map (fun j => (y j + y (n + j)%nat) / 2) (seq 0 n).
Proof using CP HX HR.
  clear HP. unfold data_of. cbn [flat_map]. rewrite app_nil_r, values_pair. unfold seen. cbn [String.eqb Ascii.eqb Bool.eqb]. unfold halves. rewrite map_length, seq_length.
  replace (2*n/2)%nat with n by (rewrite Nat.mul_comm, Nat.div_mul; lia). apply map_ext_in. intros j Hj. apply in_seq in Hj. f_equal. rewrite Rmult_1_l. f_equal; apply nth_map_seq; lia.
Qed.
End Sample.

(** *** their means *)
Section Means.
Context {G : Type}.
Variables (E : (G -> R) -> R) (vshape : list nat) (n : nat) (X : G -> list nat -> R) (val : R -> R) (mu v : list nat -> R).
Let w0 := (vshape ++ [n])%list.
Hypothesis EE : forall f h, (forall g, f g = h g) -> E f = E h.
Hypothesis SUM : forall K u f, (forall k ix, (k < K)%nat -> inb w0 ix -> cok (f k ix)) ->
  E (fun g => rsum (fun k => u k * rprod (fun ix => f k ix (X g ix)) (ndindex w0)) (seq 0 K)) =
  rsum (fun k => u k * rprod (fun ix => EN (fun z => f k ix (mu ix + sqrt (v ix) * z))) (ndindex w0)) (seq 0 K).
Variables (p : G -> proc R) (i : nat) (r : list nat) (m0 v0 : R).
Hypothesis HP : (0 < n)%nat.
Hypothesis HR : inb vshape r.
Hypothesis CP : forall g, comp (p g) = (vshape ++ [(2*n)%nat])%list.
Hypothesis P1 : forall g j, (j < n)%nat -> dat (px (p g)) (i :: r ++ [j]) = val (X g (r ++ [j])%list).
Hypothesis P2 : forall g j, (j < n)%nat -> dat (px (p g)) (i :: r ++ [(n + j)%nat]) = val (2 * m0 - X g (r ++ [j])%list).
Hypothesis IS : forall j, (j < n)%nat -> mu (r ++ [j]) = m0 /\ v (r ++ [j]) = v0.
Variable f : R -> R.
Hypothesis TF : tame (fun x => f (val x)).
Let phi x := f (val x).
Let psi x := phi (2*m0 - x).
Let h x := (phi x + psi x) / 2.
Let A := EN (fun z => phi (m0 + sqrt v0 * z)).
Let B := EN (fun z => phi (m0 + sqrt v0 * z) * phi (m0 + sqrt v0 * z)).
Let C := EN (fun z => phi (m0 + sqrt v0 * z) * psi (m0 + sqrt v0 * z)).
Let mse := ((B + C) / 2 - A^2) / INR n.
Variables (auto : string -> list R -> option (R * R) -> res nat) (bins : bspec R) (range : option (R * R)).
Hypothesis BF : bins_for vshape bins.
Let smp g := at_point f (p g) i.
Let est g := rsum (fun j => h (X g (r ++ [j])%list)) (seq 0 n) / INR n.
Lemma half1 : EN (fun z => h (m0 + sqrt v0 * z)) = A.
Proof using TF. exact (reflect_half phi m0 (sqrt v0) TF). Qed.
Lemma half2 : EN (fun z => h (m0 + sqrt v0 * z) * h (m0 + sqrt v0 * z)) = (B + C) / 2.
Proof using TF. exact (reflect_half2 phi m0 (sqrt v0) TF). Qed.
Lemma squares : EN (fun z => phi (m0 + sqrt v0 * z) * phi (m0 + sqrt v0 * z) + psi (m0 + sqrt v0 * z) * psi (m0 + sqrt v0 * z)) = 2 * B.
Proof using TF. exact (reflect_squares phi m0 (sqrt v0) TF). Qed.
Lemma pair_mixed c0 c1 c2 c3 :
  E (fun g => c0 + c1 * rsum (fun j => phi (X g (r ++ [j])%list) * phi (X g (r ++ [j])%list) + psi (X g (r ++ [j])%list) * psi (X g (r ++ [j])%list)) (seq 0 n)
       + c2 * est g ^2 + c3 * est g) = c0 + c1 * (INR n * (2 * B)) + c2 * (mse + A^2) + c3 * A.
Proof using EE SUM HP HR IS TF.
  assert (PP : 0 < INR n) by (apply lt_0_INR; exact HP). assert (TP : tame psi) by (apply tame_reflect; exact TF).
  assert (TH : tame h). { eapply tame_ext; [|apply (tame_scal (/2)), (tame_plus phi psi TF TP)]. intro x. unfold h. cbv beta. field. }
  assert (S1 : forall j, (j < n)%nat -> inb w0 (r ++ [j]) /\ mu (r ++ [j]) = m0 /\ v (r ++ [j]) = v0) by (intros j Hj; split; [apply inb_app; auto; repeat constructor; exact Hj|apply IS; exact Hj]).
  assert (S2 : forall a b, (a < n)%nat -> (b < n)%nat -> (r ++ [a])%list = (r ++ [b])%list -> a = b) by (intros a b _ _ Q; apply app_inv_head in Q; injection Q; auto).
  assert (M := mixed E w0 X mu v EE SUM n (fun j => r ++ [j])%list (fun x => phi x * phi x + psi x * psi x) h m0 v0 S1 S2
    (tame_cok _ (tame_plus _ _ (tame_mult _ _ TF TF) (tame_mult _ _ TP TP))) (tame_cok _ TH) (tame_cok _ (tame_mult _ _ TH TH)) c0 c1 (c2 / (INR n * INR n)) (c3 / INR n)).
  etransitivity; [|etransitivity; [exact M|]].
  - apply EE. intro g. cbv beta. unfold est. set (Q := rsum (fun j => h (X g (r ++ [j])%list)) (seq 0 n)). set (Q2 := rsum _ _). field. lra.
  - rewrite half1, half2, squares. unfold mse. field. lra.
Qed.
Lemma pair_values g j : (j < 2*n)%nat -> f (dat (px (p g)) (i :: r ++ [j])) = (if lt_dec j n then phi (X g (r ++ [j])%list) else psi (X g (r ++ [(j - n)%nat])%list)).
Proof using P1 P2 HP.
  intro Hj. destruct (lt_dec j n) as [J|J]; [rewrite P1 by exact J; reflexivity|]. replace j with (n + (j - n))%nat at 1 by lia. rewrite P2 by lia. reflexivity.
Qed.
Lemma pair_even : (forall g, mcu_done "even" auto bins range (smp g)) -> let m g := mcu_mean_at "even" auto bins range (smp g) r in
  E m = A /\ E (fun g => (m g - A)^2) = mse /\
  ((2 <= n)%nat -> E (fun g => mcu_var_at "even" auto bins range (smp g) r) = mse * (INR n - 1) /\ E (fun g => mcu_stderr_at "even" auto bins range (smp g) r ^2) = mse).
Proof using EE SUM HP HR IS TF BF CP P1 P2.
  intros MC m. assert (PP : 0 < INR n) by (apply lt_0_INR; exact HP).
  assert (DA : forall g, data_of "even" [(smp g, (-1)%Z)] r = map (fun j => h (X g (r ++ [j])%list)) (seq 0 n)).
  { intro g. unfold smp. rewrite (data_even (p g) vshape n i r f _ (CP g) HR (pair_values g)). apply map_ext_in. intros j Hj. apply in_seq in Hj. destruct (lt_dec j n); [|lia]. destruct (lt_dec (n + j) n); [lia|].
    replace (n + j - n)%nat with j by lia. reflexivity. }
  assert (Q := fun g => mcu_is "even" auto bins range vshape r (smp g) _ n BF (pair_ok (p g) vshape n i f (CP g) HP "even" (or_intror eq_refl)) HR (DA g) (MC g)).
  assert (QM : forall g, m g = est g) by (intro g; apply (proj1 (Q g))).
  split; [|split].
  - transitivity (E (fun g => 0 + 0 * rsum (fun j => phi (X g (r ++ [j])%list) * phi (X g (r ++ [j])%list) + psi (X g (r ++ [j])%list) * psi (X g (r ++ [j])%list)) (seq 0 n) + 0 * est g ^2 + 1 * est g)).
    + apply EE. intro g. rewrite QM. ring.
    + rewrite pair_mixed. ring.
  - transitivity (E (fun g => A^2 + 0 * rsum (fun j => phi (X g (r ++ [j])%list) * phi (X g (r ++ [j])%list) + psi (X g (r ++ [j])%list) * psi (X g (r ++ [j])%list)) (seq 0 n) + 1 * est g ^2 + (-2*A) * est g)).
    + apply EE. intro g. rewrite QM. ring.
    + rewrite pair_mixed. ring.
  - intro N2. assert (N1 : 1 < INR n) by (apply (lt_INR 1 n); lia).
    (* the spread of the half sums *)
    assert (S1 : forall j, (j < n)%nat -> inb w0 (r ++ [j]) /\ mu (r ++ [j]) = m0 /\ v (r ++ [j]) = v0) by (intros j Hj; split; [apply inb_app; auto; repeat constructor; exact Hj|apply IS; exact Hj]).
    assert (S2 : forall a b, (a < n)%nat -> (b < n)%nat -> (r ++ [a])%list = (r ++ [b])%list -> a = b) by (intros a b _ _ QQ; apply app_inv_head in QQ; injection QQ; auto).
    assert (TP : tame psi) by (apply tame_reflect; exact TF).
    assert (TH : tame h). { eapply tame_ext; [|apply (tame_scal (/2)), (tame_plus phi psi TF TP)]. intro x. unfold h. cbv beta. field. }
    assert (M := spread E w0 X (fun x => x) mu v EE SUM n (fun j => r ++ [j])%list h m0 v0 HP S1 S2 (tame_cok _ TH) (tame_cok _ (tame_mult _ _ TH TH))).
    cbv beta in M. rewrite half1, half2 in M.
    split.
    + transitivity (/ INR n * ((INR n - 1) * ((B + C)/2 - A^2))); [|unfold mse; field; lra]. rewrite <- M. apply EE. intro g. destruct (proj2 (Q g) N2) as [-> _]. unfold est. field. lra.
    + transitivity (/ (INR n * (INR n - 1)) * ((INR n - 1) * ((B + C)/2 - A^2))); [|unfold mse; field; lra]. rewrite <- M. apply EE. intro g. destruct (proj2 (Q g) N2) as [_ ->].
      rewrite <- Rsqr_pow2, Rsqr_sqrt; [field; lra|]. repeat (apply Rmult_le_pos; [|left; apply Rinv_0_lt_compat; lra]). apply rsum_squares.
Qed.
Lemma pair_all : (forall g, mcu_done "all" auto bins range (smp g)) -> let m g := mcu_mean_at "all" auto bins range (smp g) r in
  E m = A /\ E (fun g => (m g - A)^2) = mse /\ E (fun g => mcu_stderr_at "all" auto bins range (smp g) r ^2) = (B - A^2 - mse) / (2 * INR n - 1).
Proof using EE SUM HP HR IS TF BF CP P1 P2.
  intros MC m. assert (PP : 1 <= INR n) by (apply (le_INR 1 n); lia).
  set (y := fun g j => if lt_dec j n then phi (X g (r ++ [j])%list) else psi (X g (r ++ [(j - n)%nat])%list)).
  assert (Q := fun g => mcu_is "all" auto bins range vshape r (smp g) (y g) (2*n) BF (pair_ok (p g) vshape n i f (CP g) HP "all" (or_introl eq_refl)) HR
    (data_all (p g) vshape n i r f _ (CP g) HR (pair_values g)) (MC g)).
  assert (EN2 : INR (2*n) = 2 * INR n) by (rewrite mult_INR; cbn [INR]; ring).
  assert (YS : forall (k : R -> R) g, rsum (fun j => k (y g j)) (seq 0 (2*n)) = rsum (fun j => k (phi (X g (r ++ [j])%list)) + k (psi (X g (r ++ [j])%list))) (seq 0 n)).
  { intros k g. rewrite rsum_double. apply rsum_ext. intros j Hj. apply in_seq in Hj. unfold y. destruct (lt_dec j n); [|lia]. destruct (lt_dec (n + j) n); [lia|]. replace (n + j - n)%nat with j by lia. reflexivity. }
  assert (AV : forall g, rsum (y g) (seq 0 (2*n)) / INR (2*n) = est g).
  { intro g. rewrite EN2. replace (rsum (y g) (seq 0 (2*n))) with (rsum (fun j => phi (X g (r ++ [j])%list) + psi (X g (r ++ [j])%list)) (seq 0 n)) by (symmetry; exact (YS (fun x => x) g)). unfold est, h. rewrite (rsum_ext (fun j => (phi (X g (r ++ [j])%list) + psi (X g (r ++ [j])%list)) / 2) (fun j => /2 * (phi (X g (r ++ [j])%list) + psi (X g (r ++ [j])%list)))) by (intros; field).
    rewrite rsum_scal. set (S := rsum _ _). field. lra. }
  assert (QM : forall g, m g = est g) by (intro g; unfold m; rewrite (proj1 (Q g)); apply AV).
  split; [|split].
  - transitivity (E (fun g => 0 + 0 * rsum (fun j => phi (X g (r ++ [j])%list) * phi (X g (r ++ [j])%list) + psi (X g (r ++ [j])%list) * psi (X g (r ++ [j])%list)) (seq 0 n) + 0 * est g ^2 + 1 * est g)).
    + apply EE. intro g. rewrite QM. ring.
    + rewrite pair_mixed. ring.
  - transitivity (E (fun g => A^2 + 0 * rsum (fun j => phi (X g (r ++ [j])%list) * phi (X g (r ++ [j])%list) + psi (X g (r ++ [j])%list) * psi (X g (r ++ [j])%list)) (seq 0 n) + 1 * est g ^2 + (-2*A) * est g)).
    + apply EE. intro g. rewrite QM. ring.
    + rewrite pair_mixed. ring.
  - transitivity (E (fun g => 0 + / (2 * INR n * (2 * INR n - 1)) * rsum (fun j => phi (X g (r ++ [j])%list) * phi (X g (r ++ [j])%list) + psi (X g (r ++ [j])%list) * psi (X g (r ++ [j])%list)) (seq 0 n) + (- / (2 * INR n - 1)) * est g ^2 + 0 * est g)).
    + apply EE. intro g. destruct (proj2 (Q g) ltac:(lia)) as [_ ->]. rewrite <- Rsqr_pow2, Rsqr_sqrt.
      * rewrite (rsum_dev (y g) (2*n)) by lia. rewrite AV, EN2, (YS (fun x => x * x) g). set (S := rsum _ _). field. lra.
      * rewrite EN2. repeat (apply Rmult_le_pos; [|left; apply Rinv_0_lt_compat; lra]). apply rsum_squares.
    + rewrite pair_mixed. field. lra.
Qed.
Lemma pair_reduced : monotone (fun x => f (val x)) -> mse <= (B - A^2) / (2 * INR n).
Proof using HP TF.
  intro M. assert (PP : 0 < INR n) by (apply lt_0_INR; exact HP). assert (Q := reflect_monotone phi m0 (sqrt v0) TF M). fold A in Q. unfold mse, C, psi.
  set (c := EN (fun z => phi (m0 + sqrt v0 * z) * phi (2*m0 - (m0 + sqrt v0 * z)))) in *.
  replace ((B - A^2) / (2 * INR n)) with (((B + A^2)/2 - A^2) / INR n) by (field; lra). apply Rmult_le_compat_r; [left; apply Rinv_0_lt_compat; exact PP|]. lra.
Qed.
End Means.
Lemma overstated n : (0 < n)%nat -> forall V e, e <= V / (2 * INR n) -> V / (2 * INR n) <= (V - e) / (2 * INR n - 1).
Proof.
  intros HP V e H. assert (PP : 1 <= INR n) by (apply (le_INR 1 n); lia). apply (Rmult_le_reg_r (2 * INR n - 1)); [lra|].
  replace ((V - e) / (2 * INR n - 1) * (2 * INR n - 1)) with (V - e) by (field; lra).
  replace (V / (2 * INR n) * (2 * INR n - 1)) with (V - V / (2 * INR n)) by (field; lra). lra.
Qed.
