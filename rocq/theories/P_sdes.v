(** Properties C10 (systems), C11: systems of equations. *)
From Coq Require Import String List Arith Bool ZArith Reals Lra Lia Permutation.
From Verif Require Import Base BaseOrd BaseNum BaseArr M_paths S_paths M_sde S_sde S_sdes L_sde L_sde2 L_sde3 L_pack L_sdes L_sdes2
  M_presets.
Import ListNotations.

Section P.
Context {T : Type} {TO : TOrd T} {TL : TOrdLaws T} {V : Type} {NV : Num V} {Wd I : Type}.
Variable tsub : T -> T -> V.

(** C10: each component of the result is its own x0 at the starting point *)
Theorem C10_start_system q a0 set_order ids src sde gi vshape paths x0 args
      i0 pace_fn fuel wd inf (timeline : list T) p0 t0 wd' inf' xx :
  let addaxis := force_addaxis a0 vshape in
  let w := sdes_wshape q addaxis vshape ++ [paths] in
  let vp := vshape ++ [paths] in
  0 < q -> x0_fits q vp x0 ->
  valid_timeline timeline -> start_index (length timeline) i0 p0 -> nth_error timeline p0 = Some t0 ->
  length timeline + length (pace_fn timeline) <= fuel ->
  sde_call tsub (mk_sdes (I := I) (Wd := Wd) q a0 set_order ids src false sde gi vshape paths x0 args)
           i0 pace_fn fuel (wd, inf) [length timeline] timeline = Ok ((wd', inf'), xx) ->
  exists Y cs, nth_error xx p0 = Some (Some Y) /\
    sdes_result false q addaxis vshape w Y = Ok cs /\ length cs = q /\
    forall k c, nth_error cs k = Some c -> shp c = vp /\
      forall ix, inb vp ix -> dat c ix = bget (x0_comp x0 k) ix.
Proof. exact (sdes_start tsub q a0 set_order ids src false sde gi vshape paths x0 args i0 pace_fn fuel wd inf timeline p0 t0 wd' inf' xx). Qed.

(** C11: packing then unpacking gives back the arrays, broadcast to the shape of a component *)
Theorem C11_unpack_pack addaxis vshape paths q (xs : list (arr V)) X :
  packable addaxis vshape -> length xs = q -> pack addaxis vshape paths xs = Ok X ->
  exists ys, unpack q addaxis vshape X = Ok ys /\
    Forall2 (fun x y => shp y = vshape ++ [paths] /\
               forall ix, inb (vshape ++ [paths]) ix -> dat y ix = bget x ix) xs ys.
Proof. intro PK. exact (unpack_pack addaxis vshape paths PK q xs X). Qed.
Theorem C11_pack_succeeds addaxis vshape paths (xs : list (arr V)) :
  packable addaxis vshape ->
  ((exists X, pack addaxis vshape paths xs = Ok X) <->
   xs <> [] /\ Forall (fun x => can (shp x) (vshape ++ [paths]) = true) xs).
Proof.
  intro PK. split.
  - intros (X & H). eapply pack_inv; eauto.
  - intros [H1 H2]. destruct (pack_ok addaxis vshape paths PK xs H1 H2) as (X & ? & _). eauto.
Qed.
(** and vice versa *)
Theorem C11_pack_unpack addaxis vshape paths q (X : arr V) ys :
  packable addaxis vshape -> 0 < q -> shp X = sdes_wshape q addaxis vshape ++ [paths] ->
  unpack q addaxis vshape X = Ok ys -> exists Y, pack addaxis vshape paths ys = Ok Y /\ aeq Y X.
Proof. intro PK. exact (pack_unpack addaxis vshape paths PK q X ys). Qed.
(** components do not overlap and cover the packed array *)
Theorem C11_components_partition addaxis vshape paths q ix :
  packable addaxis vshape -> inb (sdes_wshape q addaxis vshape ++ [paths]) ix ->
  (exists k ix', k < q /\ inb (vshape ++ [paths]) ix' /\ ix = comp addaxis vshape k ix') /\
  (forall k1 k2 i1 i2, inb (vshape ++ [paths]) i1 -> inb (vshape ++ [paths]) i2 ->
     comp addaxis vshape k1 i1 = comp addaxis vshape k2 i2 -> k1 = k2 /\ i1 = i2).
Proof.
  intros PK HI. split; [apply comp_cover; auto|]. intros k1 k2 i1 i2. apply comp_inj; auto.
Qed.
End P.
Print Assumptions C10_start_system.
Print Assumptions C11_unpack_pack.
Print Assumptions C11_pack_succeeds.
Print Assumptions C11_pack_unpack.
Print Assumptions C11_components_partition.

Section PR.
Context {Wd I I1 : Type}.
Open Scope R_scope.

(** C11: component k follows the Euler recursion of equation k with slice k of the sources *)
Theorem C11_components q a0 set_order ids src log sde gi vshape paths x0 args
      i0 pace_fn fuel wd (inf : I) (timeline : list R) p0 t0 wd' inf' xx :
  let addaxis := force_addaxis a0 vshape in
  let ig := mk_sdes (I := I) (Wd := Wd) q a0 set_order ids src log sde gi vshape paths x0 args in
  (forall l, Permutation (set_order l) l) -> NoDup ids ->
  valid_timeline timeline -> start_index (length timeline) i0 p0 -> nth_error timeline p0 = Some t0 ->
  (length timeline + length (pace_fn timeline) <= fuel)%nat ->
  sde_call Rminus ig i0 pace_fn fuel (wd, inf) [length timeline] timeline = Ok ((wd', inf'), xx) ->
  run_of ig (system_step q addaxis vshape paths args sde Rminus ig) timeline (pace_fn timeline) i0 p0 t0 wd wd' xx.
Proof.
  intros addaxis ig PERM ND V0 SI N0 HF H.
  apply (sde_call_run _ _ _ _ _ _ _ _ p0 t0) in H; auto.
  eapply run_imp; [|exact H]. intros wd0 t t' x wd1 x' ST.
  apply (system_next_step q addaxis vshape paths set_order args sde ig Rminus); auto.
  apply packable_force.
Qed.

(** C11: an equation that does not refer to the others gives the same paths alone *)
Theorem C11_uncoupled q a0 set_order ids src sde gi vshape paths x0 args i src1 sde1 gi1 x0i
      i0 pace_fn fuel wd (inf : I) (inf1 : I1) (timeline : list R) p0 wd' inf' xx :
  let addaxis := force_addaxis a0 vshape in
  let w := (sdes_wshape q addaxis vshape ++ [paths])%list in
  let vp := (vshape ++ [paths])%list in
  (forall l, Permutation (set_order l) l) -> NoDup ids -> (i < q)%nat ->
  (* src1 gives slice i of the sources *)
  (forall id wd t dt wd' z, In id ids -> src id wd t dt = Ok (wd', z) ->
     exists z1, src1 id wd t dt = Ok (wd', z1) /\ can (shp z1) vp = true /\
                forall ix, inb vp ix -> bget z1 ix = bget z (comp addaxis vshape i ix)) ->
  uncoupled i args sde sde1 ->
  x0_fits q vp x0 -> can (shp x0i) vp = true ->
  (forall ix, inb vp ix -> bget x0i ix = bget (x0_comp x0 i) ix) ->
  valid_timeline timeline -> start_index (length timeline) i0 p0 ->
  (length timeline + length (pace_fn timeline) <= fuel)%nat ->
  sde_call Rminus (mk_sdes (I := I) (Wd := Wd) q a0 set_order ids src false sde gi vshape paths x0 args)
           i0 pace_fn fuel (wd, inf) [length timeline] timeline = Ok ((wd', inf'), xx) ->
  exists inf1' xx1,
    sde_call Rminus (mk_sde ids src1 false sde1 gi1 vshape paths x0i args)
             i0 pace_fn fuel (wd, inf1) [length timeline] timeline = Ok ((wd', inf1'), xx1) /\
    Forall2 (fun a b => exists Y y cs c, a = Some Y /\ b = Some y /\
       sdes_result false q addaxis vshape w Y = Ok cs /\ nth_error cs i = Some c /\ shp c = vp /\
       forall ix, inb vp ix -> dat c ix = y ix) xx xx1.
Proof. exact (uncoupled_run q a0 set_order ids src false sde gi vshape paths x0 args i src1 sde1 gi1 x0i i0 pace_fn fuel wd inf inf1 timeline p0 wd' inf' xx). Qed.

(** C10: with log=True the initial value of a system comes back exponentiated *)
Theorem C10_system_log_exponentiated q a0 set_order ids src sde gi vshape paths x0 args
      i0 pace_fn fuel wd (inf : I) (timeline : list R) p0 t0 wd' inf' xx :
  let addaxis := force_addaxis a0 vshape in
  let w := (sdes_wshape q addaxis vshape ++ [paths])%list in
  let vp := (vshape ++ [paths])%list in
  (0 < q)%nat -> x0_fits q vp x0 ->
  (forall k ix, (k < q)%nat -> inb vp ix -> 0 < bget (x0_comp x0 k) ix) ->
  valid_timeline timeline -> start_index (length timeline) i0 p0 -> nth_error timeline p0 = Some t0 ->
  (length timeline + length (pace_fn timeline) <= fuel)%nat ->
  sde_call Rminus (mk_sdes (I := I) (Wd := Wd) q a0 set_order ids src true sde gi vshape paths x0 args)
           i0 pace_fn fuel (wd, inf) [length timeline] timeline = Ok ((wd', inf'), xx) ->
  exists Y cs, nth_error xx p0 = Some (Some Y) /\
    sdes_result true q addaxis vshape w Y = Ok cs /\ length cs = q /\
    forall k c, nth_error cs k = Some c -> shp c = vp /\
      forall ix, inb vp ix -> dat c ix = exp (bget (x0_comp x0 k) ix).
Proof.
  intros addaxis w vp HQ HF POS V0 SI N0 HFu H.
  destruct (sdes_start Rminus q a0 set_order ids src true sde gi vshape paths x0 args i0 pace_fn fuel wd inf timeline p0 t0 wd' inf' xx
    HQ HF V0 SI N0 HFu H) as (Y & cs & E1 & E2 & L & HC).
  exists Y, cs. split; [exact E1|]. split; [exact E2|]. split; [exact L|]. intros k c Ec. destruct (HC k c Ec) as [SC DC].
  split; auto. intros ix HI. rewrite DC by auto. cbn [nexp nlog Num_R].
  rewrite exp_ln; auto. apply POS; auto. rewrite <- L. apply nth_error_Some. congruence.
Qed.
End PR.
Print Assumptions C11_components.
Print Assumptions C11_uncoupled.
Print Assumptions C10_system_log_exponentiated.

(** *** Examples *)
Section Ex.
Open Scope Z_scope.
Definition vec (l : list Z) : arr Z := mkArr [length l] (fun ix => nth (hd 0%nat ix) l 0).
(** two components of vshape (2,), one path *)
Definition exX : res (arr Z) := pack false [2%nat] 1 [mkArr [2;1]%nat (fun ix => nth (hd 0%nat ix) [1;2] 0); ascalar 7].
Example C11_ex_pack : match exX with
  | Ok X => (shp X, map (fun i => dat X [i; 0%nat]) [0;1;2;3]%nat) = ([4;1]%nat, [1;2;7;7])
  | Err _ => False end.
Proof. vm_compute. reflexivity. Qed.
Example C11_ex_unpack : match rbind exX (unpack 2 false [2%nat]) with
  | Ok [a; b] => (shp a, map (fun i => dat a [i; 0%nat]) [0;1]%nat, map (fun i => dat b [i; 0%nat]) [0;1]%nat)
                 = ([2;1]%nat, [1;2], [7;7])
  | _ => False end.
Proof. vm_compute. reflexivity. Qed.

(** a system of two equations: dx = y dt + dw, dy = 2 dw (the source gives 10n to x, 20n to y
    at its n-th call), from (1, 5), one path, scalar components *)
Definition sys_dw (n : nat) (t dt : Z) : res (nat * arr Z) :=
  Ok (S n, mkArr [2;1]%nat (fun ix => Z.of_nat (S n) * match ix with 0%nat :: _ => 10 | _ => 20 end)).
Definition sys_sde (t : Z) (xs : list (arr Z)) (args : dict (arr Z)) : res (sdeval Z) :=
  match xs with
  | [x; y] => Ok (RSeq [RDict [("dt"%string, y); ("dw"%string, ascalar 1)]; RDict [("dw"%string, ascalar 2)]])
  | _ => Err TypeError
  end.
Definition sys_ig : integ Z Z nat unit :=
  mk_sdes 2 false (@rev string) dw_ids (dw_src sys_dw) false sys_sde false [] 1 (vec [1; 5]) [].
Example C11_ex_run : match sde_call Z.sub sys_ig 0 (fun _ => []) 10 (0%nat, tt) [3%nat] [0; 1; 3] with
  | Ok (_, xx) => map (option_map (fun y : buf Z => (y [0;0]%nat, y [1;0]%nat))) xx
                  = [Some (1, 5); Some (1 + 5*1 + 10, 5 + 2*20); Some (16 + 45*2 + 20, 45 + 2*40)]
  | Err _ => False end.
Proof. vm_compute. reflexivity. Qed.
Example C10_ex_run : match sde_call Z.sub sys_ig (-1) (fun _ => [2]) 10 (0%nat, tt) [3%nat] [0; 1; 3] with
  | Ok (_, xx) => option_map (option_map (fun y : buf Z => (y [0;0]%nat, y [1;0]%nat))) (nth_error xx 2)
                  = Some (Some (1, 5))
  | Err _ => False end.
Proof. vm_compute. reflexivity. Qed.
End Ex.

(** a system whose second equation does not refer to the first; the hypotheses of C11_uncoupled
    hold and the conclusion is about an actual run *)
Section ExR.
Open Scope R_scope.
Definition unc_sde (t : R) (xs : list (arr R)) (args : dict (arr R)) : res (sdeval R) :=
  match xs with
  | [x; y] => Ok (RSeq [RDict [("dt"%string, y)]; RDict [("dt"%string, y); ("dw"%string, ascalar 2)]])
  | _ => Err TypeError
  end.
Definition unc_sde1 (t : R) (x : arr R) (args : dict (arr R)) : res (sdeval R) :=
  Ok (RDict [("dt"%string, x); ("dw"%string, ascalar 2)]).
Example C11_ex_uncoupled : uncoupled 1 [] unc_sde unc_sde1.
Proof.
  intros t xs As x Ai x' av H H1 H2 HE. unfold unc_sde in H.
  destruct xs as [|x0 [|y [|]]]; try discriminate. injection H as H.
  destruct As as [|A0 [|A1 [|]]]; try discriminate. injection H as _ H. subst A1.
  simpl in H1, H2. injection H1 as ->. injection H2 as <-. split.
  - repeat constructor; simpl; intuition discriminate.
  - eexists. split; [reflexivity|]. repeat constructor; simpl; auto; apply HE.
Qed.
(** but the first does refer to the second *)
Example C11_ex_coupled : ~ uncoupled 0 [] unc_sde unc_sde1.
Proof.
  intro H. destruct (H 0 [ascalar 1; ascalar 2] [[("dt"%string, ascalar 2)]; [("dt"%string, ascalar 2); ("dw"%string, ascalar 2)]]
    (ascalar 1) _ (ascalar 1) eq_refl eq_refl eq_refl) as (_ & A' & E & D).
  - split; auto.
  - injection E as <-. inversion D as [|? ? ? ? _ D']. inversion D'.
Qed.
(** initial value 1 in log mode: the result is exp 1 *)
Example C10_ex_log : exp 1 <> 1.
Proof. pose proof (exp_ineq1 1). lra. Qed.
End ExR.

(** C10 fails for systems in log mode: whenever a run completes, the value at the starting point is not x0. *)
Theorem C10_system_log_refuted :
  exists (ig : integ R R unit unit) (x0 : arr R) s' xx Y cs c,
    ig = mk_sdes 1 true (fun l => l) ["dt"%string] (fun _ => source_dt) true
           (fun _ _ _ => Ok (RSeq [RDict []])) false [] 1 x0 [] /\
    sde_call Rminus ig 0 (fun _ => []) 3 (tt, tt) [1%nat] [0%R] = Ok (s', xx) /\
    nth_error xx 0 = Some (Some Y) /\
    sdes_result true 1 true [] [1;1]%nat Y = Ok cs /\ nth_error cs 0 = Some c /\
    dat c [0%nat] <> bget x0 [0%nat].
Proof.
  set (x0 := ascalar (V := R) 1%R).
  set (ig := mk_sdes 1 true (fun l => l) ["dt"%string] (fun _ : string => source_dt) true
           (fun (_ : R) _ _ => Ok (RSeq [RDict []])) false [] 1 x0 [] : integ R R unit unit).
  assert (V0 : valid_timeline [0%R]).
  { split; [discriminate|]. split; repeat constructor. apply teqb_R_true; auto. }
  assert (TI : total_integ ig (fun _ => True)).
  { split; cbn.
    - intro t. eexists. reflexivity.
    - intros t x. eexists. split; [reflexivity|]. constructor.
    - intros id wd t dt _ _. exists wd, (ascalar dt). auto.
    - intros t x. eexists. reflexivity.
    - eexists. reflexivity.
    - eexists. reflexivity. }
  destruct (sde_call_total Rminus ig _ TI 0%Z (fun _ => []) 3 (tt, tt) [0%R] 0%nat Logic.I V0) as ([wd' inf'] & xx & E).
  { unfold start_index. simpl. lia. } { simpl. lia. }
  destruct (C10_system_log_exponentiated (I := unit) (Wd := unit) 1 true (fun l => l) ["dt"%string] (fun _ : string => source_dt)
           (fun (_ : R) _ _ => Ok (RSeq [RDict []])) false [] 1 x0 [] 0%Z (fun _ => []) 3 tt tt [0%R] 0%nat 0%R wd' inf' xx)
    as (Y & cs & E1 & E2 & L & HC); auto.
  { left. reflexivity. } { intros. simpl. lra. } { unfold start_index. simpl. lia. }
  destruct cs as [|c cs]; [discriminate|]. destruct (HC 0%nat c eq_refl) as [SC DC].
  exists ig, x0, (wd', inf'), xx, Y, (c :: cs), c.
  split; [reflexivity|]. split; [exact E|]. split; [exact E1|]. split; [exact E2|]. split; [reflexivity|].
  rewrite DC by (repeat constructor). simpl. pose proof (exp_ineq1 1). lra.
Qed.
Print Assumptions C10_system_log_refuted.
