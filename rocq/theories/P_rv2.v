(** Properties of sampling from jump distributions: C61. *)
From Coq Require Import List Arith Bool Lia ZArith Reals Lra Permutation.
From Verif Require Import Base BaseNum BaseArr BaseNd BaseIdx M_process M_source M_rv S_mc S_process S_source L_nd L_process L_process2 L_source P_source P_source3.
Import ListNotations.
Local Open Scope R_scope.

Section C61.
Context {G : Type} (std_exp std_uniform std_normal : list nat -> G -> res (arr R) * G).
(** variates of scipy's distributions: entries of the requested size, each with the parameters broadcast to it *)
Lemma frozen_ok ps f (std : list nat -> G -> res (arr R) * G) size g : (forall a, In a ps -> can (shp a) size = true) -> forall e g', std size g = (Ok e, g') ->
  frozen ps f std size g = (Ok (mkArr size (fun ix => f ix (dat e ix))), g').
Proof.
  intros C e g' E. unfold frozen. replace (forallb _ ps) with true. 2: { symmetry. apply forallb_forall. exact C. } unfold dbind. rewrite E. reflexivity.
Qed.
Theorem C61_exp a size g e g' : can (shp a) size = true -> std_exp size g = (Ok e, g') ->
  exists x, exp_rvs std_exp a size g = (Ok x, g') /\ shp x = size /\ forall ix, dat x ix = bget a ix * dat e ix.
Proof.
  intros C E. unfold exp_rvs. erewrite frozen_ok; [|intros b [<-|[]]; auto|exact E]. eexists. split; [reflexivity|]. split; [reflexivity|]. intro ix. cbn [dat].
  unfold exp_variate, zmul. rewrite nsign_R, nabs_R. change (nmul (V := R)) with Rmult. change (nsub (V := R)) with Rminus. change (@nzero R _) with 0.
  destruct (Rlt_dec 0 (bget a ix)); [|destruct (Rlt_dec (bget a ix) 0)]; cbn [Z.eqb Pos.eqb].
  - rewrite Rabs_right by lra. ring.
  - rewrite Rabs_left by lra. ring.
  - replace (bget a ix) with 0 by lra. ring.
Qed.
Theorem C61_normal a b size g z g' : can (shp a) size = true -> can (shp b) size = true -> std_normal size g = (Ok z, g') ->
  exists x, norm_rvs std_normal a b size g = (Ok x, g') /\ shp x = size /\ forall ix, dat x ix = bget a ix + bget b ix * dat z ix.
Proof. intros C1 C2 E. unfold norm_rvs. erewrite frozen_ok; [|intros c [<-|[<-|[]]]; auto|exact E]. eexists. split; [reflexivity|]. split; reflexivity. Qed.
Theorem C61_uniform a b size g u g' : can (shp a) size = true -> can (shp b) size = true -> std_uniform size g = (Ok u, g') ->
  exists x, uniform_rvs std_uniform a b size g = (Ok x, g') /\ shp x = size /\ forall ix, dat x ix = bget a ix + (bget b ix - bget a ix) * dat u ix.
Proof. intros C1 C2 E. unfold uniform_rvs. erewrite frozen_ok; [|intros c [<-|[<-|[]]]; auto|exact E]. eexists. split; [reflexivity|]. split; reflexivity. Qed.
(** three independent draws, two of which are used for each variate *)
Theorem C61_double (d : double R) size g e1 g1 e2 g2 u g3 : can (shp (da d)) size = true -> can (shp (db d)) size = true ->
  std_exp size g = (Ok e1, g1) -> std_exp size g1 = (Ok e2, g2) -> std_uniform size g2 = (Ok u, g3) ->
  exists x, double_rvs std_exp std_uniform d size g = (Ok x, g3) /\ shp x = size /\ forall ix,
    dat x ix = if Rle_dec (dat u ix) (bget (dpa d) ix) then bget (da d) ix * dat e1 ix else - (bget (db d) ix * dat e2 ix).
Proof.
  intros C1 C2 E1 E2 E3. unfold double_rvs. unfold dbind at 1. erewrite frozen_ok; [|intros c [<-|[]]; auto|exact E1]. unfold dbind at 1. erewrite frozen_ok; [|intros c [<-|[]]; auto|exact E2]. unfold dbind. rewrite E3.
  eexists. split; [reflexivity|]. split; [reflexivity|]. intro ix. cbn [dat]. cbn [nlt Num_R]. destruct (Rlt_dec (bget (dpa d) ix) (dat u ix)), (Rle_dec (dat u ix) (bget (dpa d) ix)); try (exfalso; lra); auto. change (nsub (V := R)) with Rminus. change (nmul (V := R)) with Rmult. change (@nzero R _) with 0. ring.
Qed.
Theorem C61_misfit a size g : can (shp a) size = false -> exp_rvs std_exp a size g = (Err ValueError, g).
Proof. intro C. unfold exp_rvs, frozen. cbn [forallb]. rewrite C. reflexivity. Qed.

(** *** time dependent parameters *)
Lemma params_at_ok (l : list (input R)) t r : params_at l t = Ok r <-> Forall2 (fun z a => param_at z t = Ok a) l r.
Proof.
  revert r. induction l as [|z l IH]; intro r; cbn [params_at].
  - split; [intro E; injection E as <-; constructor|intro F; inversion F; auto].
  - cbv beta iota delta [rbind]. destruct (param_at z t) as [a|e] eqn:E1.
    + destruct (params_at l t) as [q|e] eqn:E2; split.
      * intro E. injection E as <-. constructor; auto. apply IH; auto.
      * intro F. inversion F as [|? ? ? ? A1 A2]; subst. apply IH in A2. injection A2 as ->. rewrite A1 in E1. injection E1 as ->. reflexivity.
      * discriminate.
      * intro F. inversion F as [|? ? ? ? A1 A2]; subst. apply IH in A2. discriminate.
    + split; [discriminate|]. intro F. inversion F as [|? ? ? ? A1 A2]; subst. congruence.
Qed.
(** constant parameters make a distribution, others a function that makes one at each time, with the parameters at that time *)
Theorem C61_fixed {D} (new : list (arr R) -> res D) params as_ d : params = map (fun a => IArr a) as_ -> new as_ = Ok d -> make_variable new params = Ok (Fixed D d).
Proof.
  intros -> N. unfold make_variable. replace (existsb is_callable (map (fun a => IArr a) as_)) with false.
  - replace (params_at (map (fun a : arr R => IArr a) as_) none) with (Ok (A := list (arr R)) as_). { cbv beta iota delta [rbind]. rewrite N. reflexivity. } symmetry. apply params_at_ok. clear. induction as_; constructor; auto.
  - clear. induction as_; auto.
Qed.
Theorem C61_variable {D} (new : list (arr R) -> res D) params : (exists z, In z params /\ is_callable z = true) ->
  exists h, make_variable new params = Ok (OfTime D h) /\
    forall t as_, Forall2 (fun z a => param_at z t = Ok a) params as_ -> h t = new as_.
Proof.
  intros (z & I & C). unfold make_variable. replace (existsb is_callable params) with true. 2: { symmetry. apply existsb_exists. eauto. }
  eexists. split; [reflexivity|]. intros t as_ F. apply params_at_ok in F. cbv beta. rewrite F. reflexivity.
Qed.
(** a sample at a time is a sample of the distribution with the parameters at that time *)
Theorem C61_at_time (new : list (arr R) -> res (list nat -> G -> res (arr R) * G)) params y t m j g as_ d : make_variable new params = Ok y -> Forall2 (fun z a => param_at z t = Ok a) params as_ -> new as_ = Ok d ->
  rvs_of y t m j g = d [m; j] g.
Proof.
  intros M F N. unfold make_variable in M. destruct (existsb is_callable params) eqn:E.
  - injection M as <-. cbn [rvs_of]. apply params_at_ok in F. unfold dbind, dres. rewrite F. cbv beta iota delta [rbind]. rewrite N. reflexivity.
  - assert (F' : params_at params none = Ok as_).
    { apply params_at_ok. clear M N. induction F as [|z a l r A F IH]; constructor.
      - destruct z; cbn [is_callable existsb] in *; try discriminate; auto.
      - apply IH. cbn [existsb] in E. apply orb_false_iff in E. tauto. }
    rewrite F' in M. cbv beta iota delta [rbind] in M. rewrite N in M. injection M as <-. reflexivity.
Qed.

(** *** mapped distributions *)
Section Map.
Variables (td : bool) (f : R -> arr R -> res (arr R)) (phi : R -> R -> R).
Hypothesis F : forall t x, f t x = Ok (amap (phi t) x).
Hypothesis TD : td = false -> forall t t', phi t = phi t'.
Theorem C61_rvmap y t m j (g : G) x g' : rvs_of y t m j g = (Ok x, g') -> rvs_of (rvmap td f y) t m j g = (Ok (amap (phi t) x), g').
Proof using F TD.
  destruct y as [d|d]; unfold rvmap.
  - intro E. destruct td; cbn [rvs_of] in *.
    + unfold dbind, dres at 1. rewrite E. unfold dres. rewrite F. reflexivity.
    + unfold dbind. rewrite E. unfold dres. rewrite F. rewrite (TD eq_refl t none). reflexivity.
  - cbn [rvs_of]. intro E. apply dbind_ok in E. destruct E as (s & g1 & E1 & E). apply dres_ok in E1. destruct E1 as [E1 ->]. unfold dbind at 1, dres at 1. cbv beta iota delta [rbind]. rewrite E1. unfold dbind. rewrite E. unfold dres. rewrite F. reflexivity.
Qed.
Theorem C61_rvmap_error y t m j (g : G) e g' : rvs_of y t m j g = (Err e, g') -> rvs_of (rvmap td f y) t m j g = (Err e, g').
Proof using.
  clear TD F. destruct y as [d|d]; unfold rvmap.
  - intro E. destruct td; cbn [rvs_of] in *.
    + unfold dbind, dres at 1. rewrite E. reflexivity.
    + unfold dbind. rewrite E. reflexivity.
  - cbn [rvs_of]. unfold dbind, dres. destruct (d t) as [s|e1]; cbv beta iota delta [rbind]; [|auto]. intro E. rewrite E. reflexivity.
Qed.
Lemma samples_mapped y s tm pos js : forall (g : G) l g', threaded (fun j => jump_sample (rvs_of y) s tm pos j) js g l g' ->
  exists l', threaded (fun j => jump_sample (rvs_of (rvmap td f y)) s tm pos j) js g l' g' /\ the_samples l' = map (fun p => (fst p, amap (phi tm) (snd p))) (the_samples l).
Proof using F TD.
  intros g l g' T. induction T as [g|j js g b g1 l g2 E T (l' & T' & L')]; [exists []; split; [constructor|reflexivity]|].
  unfold jump_sample in E. destruct (filter (fun ix => (dat pos ix =? Z.of_nat j)%Z) (ndindex (shp pos))) as [|e0 e] eqn:FE.
  - apply dret_ok in E. destruct E as [-> ->]. exists ((j, None) :: l'). split; [econstructor; [|exact T']|exact L']. unfold jump_sample. rewrite FE. reflexivity.
  - apply dbind_ok in E. destruct E as (x & g3 & E & E'). apply dbind_ok in E'. destruct E' as ([] & g4 & E4 & E'). apply dres_ok in E4. destruct E4 as [E4 ->]. apply dret_ok in E'. destruct E' as [-> ->]. exists ((j, Some (e0 :: e, amap (phi tm) x)) :: l'). split.
    + econstructor; [|exact T']. unfold jump_sample. rewrite FE. apply dbind_ok. exists (amap (phi tm) x), g3. split; [apply C61_rvmap; exact E|]. unfold dbind, dres. rewrite E4. reflexivity.
    + cbn [the_samples flat_map snd app map fst] in *. f_equal. exact L'.
Qed.
Lemma jlist_mapped h L ix : jlist (map (fun p => (fst p, amap h (snd p))) L) ix = map h (jlist L ix).
Proof. induction L as [|[e y] L IH]; cbn [map jlist fst snd]; auto. destruct (position ix e); auto. unfold row. rewrite map_map. reflexivity. Qed.
(** a compound Poisson source of a mapped distribution: same counts, and each jump mapped *)
Theorem C61_jumps dn paths vshape t dt w (g : G) dz n ys g' y : bshape (shp t) (shp dt) = Some w -> cpoisson_call dn (rvs_of y) paths vshape t dt g = (Ok (dz, n, ys), g') ->
  shp n = w ++ vshape ++ [paths] ->
  exists dz' ys' (jumps : list nat -> list nat -> list R), cpoisson_call dn (rvs_of (rvmap td f y)) paths vshape t dt g = (Ok (dz', n, ys'), g') /\
    forall ix r, inb w ix -> inb (vshape ++ [paths]) r ->
      dat dz (ix ++ r) = IZR (nsign (bget dt ix)) * total (jumps ix r) /\
      dat dz' (ix ++ r) = IZR (nsign (bget dt ix)) * total (map (phi (middle t dt ix)) (jumps ix r)).
Proof using F TD.
  intros B C SN. unfold cpoisson_call in C. apply dbind_ok in C. destruct C as ([t' dt'] & g0 & E0 & C). apply dres_ok in E0. destruct E0 as [E0 ->]. pose proof E0 as E0'. unfold broadcast2 in E0. rewrite B in E0. injection E0 as <- <-. cbn [shp dat] in C.
  apply dbind_ok in C. destruct C as (n' & g1 & DN & C). apply dbind_ok in C. destruct C as (l & g2 & T & C). apply dret_ok in C. destruct C as [C ->]. injection C as -> -> ->. apply each_threaded in T. set (s := vshape ++ [paths]) in *.
  pose (step := fun rvs i => let sign := nsign (bget dt i) in dbind (dres (sub_arr n' i)) (fun ni : arr Z => let pos := amap (fun k => (sign * k)%Z) ni in dbind (dres (zmax (ravel pos))) (fun nmax => dbind (each (fun j => jump_sample (G := G) rvs s (mid_time (mkArr w (bget t)) (mkArr w (bget dt)) i) pos j) (seq 1 (Z.to_nat nmax))) (fun l => dret (mkArr s (jumps_at (List.length (shp ni)) sign (the_samples l)), map snd (the_samples l)))))).
  change (threaded (step (rvs_of y)) (ndindex w) g1 l g2) in T. pose proof (threaded_fst _ _ _ _ _ T) as FT.
  assert (K : exists l' (jumps : list nat -> list nat -> list R), threaded (step (rvs_of (rvmap td f y))) (ndindex w) g1 l' g2 /\
    (forall ix z y, In (ix, (z, y)) l -> forall r, inb s r -> shp z = s /\ dat z r = IZR (nsign (bget dt ix)) * total (jumps ix r)) /\
    (forall ix z y, In (ix, (z, y)) l' -> forall r, inb s r -> shp z = s /\ dat z r = IZR (nsign (bget dt ix)) * total (map (phi (middle t dt ix)) (jumps ix r)))).
  { assert (IW : forall ix, In ix (ndindex w) -> inb w ix) by (intros; apply in_ndindex; auto). revert IW. clear FT DN. pose proof (NoDup_ndindex w) as ND. revert ND. induction T as [g3|i il g3 b g4 l g5 E T IH]; intros ND IW.
    - exists [], (fun _ _ => []). split; [constructor|]. split; intros ix z x [].
    - inversion ND as [|? ? NI ND']; subst. destruct (IH ND' (fun ix I => IW ix (or_intror I))) as (l' & jumps & T' & J1 & J2). clear IH. assert (I0 := IW i (or_introl eq_refl)). unfold step in E.
      apply dbind_ok in E. destruct E as (ni & g6 & E6 & E). apply dres_ok in E6. destruct E6 as [E6 ->]. assert (LN : shp ni = s) by (rewrite (sub_arr_prefix n' w s i SN I0) in E6; injection E6 as <-; reflexivity).
      apply dbind_ok in E. destruct E as (nm & g7 & E7 & E). apply dres_ok in E7. destruct E7 as [E7 ->]. apply dbind_ok in E. destruct E as (sl & g8 & E8 & E). apply dret_ok in E. destruct E as [-> ->]. apply each_threaded in E8.
      destruct (samples_mapped _ _ _ _ _ _ _ _ E8) as (sl' & E9 & SL).
      exists ((i, (mkArr s (jumps_at (List.length (shp ni)) (nsign (bget dt i)) (the_samples sl')), map snd (the_samples sl'))) :: l'), (fun ix => if list_eq_dec Nat.eq_dec ix i then jlist (the_samples sl) else jumps ix). split; [|split].
      + econstructor; [|exact T']. unfold step. apply dbind_ok. exists ni, g3. split; [apply dres_ok; auto|]. apply dbind_ok. exists nm, g3. split; [apply dres_ok; auto|]. apply dbind_ok. exists sl', g8. split; [apply each_threaded; exact E9|reflexivity].
      + intros ix z x [Q|Q] r Ir.
        * injection Q as -> <- <-. destruct (list_eq_dec Nat.eq_dec ix ix); [|contradiction]. split; [reflexivity|]. cbn [dat]. apply jumps_at_sum; [rewrite LN, (inb_length _ _ Ir); auto|apply nsign_cases].
        * destruct (list_eq_dec Nat.eq_dec ix i) as [->|_]; [|apply (J1 _ _ _ Q r Ir)]. exfalso. apply NI. apply threaded_fst in T. rewrite <- T. apply in_map_iff. exists (i, (z, x)). auto.
      + intros ix z x [Q|Q] r Ir.
        * injection Q as -> <- <-. destruct (list_eq_dec Nat.eq_dec ix ix); [|contradiction]. split; [reflexivity|]. cbn [dat]. rewrite jumps_at_sum by (apply nsign_cases || (rewrite LN, (inb_length _ _ Ir); auto)). rewrite SL, jlist_mapped. reflexivity.
        * destruct (list_eq_dec Nat.eq_dec ix i) as [->|_]; [|apply (J2 _ _ _ Q r Ir)]. exfalso. apply NI. apply threaded_fst in T'. rewrite <- T'. apply in_map_iff. exists (i, (z, x)). auto. }
  destruct K as (l' & jumps & T' & J1 & J2). pose proof (threaded_fst _ _ _ _ _ T') as FT'.
  exists (assembled nzero w s (map (fun p => (fst p, fst (snd p))) l')), (flat_map (fun p => snd (snd p)) l'), jumps. split.
  - unfold cpoisson_call. apply dbind_ok. exists (mkArr w (bget t), mkArr w (bget dt)), g. split; [apply dres_ok; auto|]. apply dbind_ok. exists n', g1. split; [exact DN|]. apply dbind_ok. exists l', g2. split; [apply each_threaded; exact T'|reflexivity].
  - intros ix r I1 I2. split.
    + destruct (assembled_entry 0 w s (map (fun p => (fst p, fst (snd p))) l) ix r) as (a & A1 & A2); [rewrite map_map; exact FT|auto|]. rewrite A2. apply in_map_iff in A1. destruct A1 as ([i [z x]] & A1 & A3). cbn [fst snd] in A1. injection A1 as -> ->. destruct (J1 _ _ _ A3 r I2) as [S1 K1]. rewrite bget_self by (rewrite S1; auto). exact K1.
    + destruct (assembled_entry (nzero (V := R)) w s (map (fun p => (fst p, fst (snd p))) l') ix r) as (a & A1 & A2); [rewrite map_map; exact FT'|auto|]. rewrite A2. apply in_map_iff in A1. destruct A1 as ([i [z x]] & A1 & A3). cbn [fst snd] in A1. injection A1 as -> ->. destruct (J2 _ _ _ A3 r I2) as [S1 K1]. rewrite bget_self by (rewrite S1; auto). exact K1.
Qed.
End Map.
End C61.
Example C61_ex : let std := fun (s : list nat) (g : nat) => (Ok (mkArr s (fun _ => INR g)), S g) in
  let y := OfTime _ (fun t => Ok (exp_rvs std (ascalar (- t)))) in
  exists x, rvs_of (rvmap true (fun t a => Ok (amap (fun v => t + v) a)) y) 2 3 4 5%nat = (Ok x, 6%nat) /\ shp x = [3; 4]%nat /\ dat x [1; 2]%nat = 2 - 2*5.
Proof.
  cbv zeta. set (std := fun (s : list nat) (g : nat) => (Ok (mkArr s (fun _ : list nat => INR g)), S g)).
  destruct (C61_exp std (ascalar (- (2))) [3; 4]%nat 5%nat (mkArr [3; 4]%nat (fun _ => INR 5)) 6%nat) as (x & X1 & X2 & X3); [reflexivity|reflexivity|].
  assert (E := C61_rvmap true (fun t a => Ok (amap (fun v => t + v) a)) (fun t v => t + v) ltac:(reflexivity) ltac:(discriminate) (OfTime _ (fun t => Ok (exp_rvs std (ascalar (- t))))) 2 3 4 5%nat x 6%nat X1).
  exists (amap (fun v => 2 + v) x). split; [exact E|]. split; [exact X2|]. cbn [amap dat]. rewrite X3. unfold bget. cbn [dat ascalar]. simpl. ring.
Qed.
Print Assumptions C61_exp.
Print Assumptions C61_normal.
Print Assumptions C61_uniform.
Print Assumptions C61_double.
Print Assumptions C61_misfit.
Print Assumptions C61_fixed.
Print Assumptions C61_variable.
Print Assumptions C61_at_time.
Print Assumptions C61_rvmap.
Print Assumptions C61_rvmap_error.
Print Assumptions C61_jumps.
