(** Specification of what integrating an SDE must give: the Euler-Maruyama
    recursion, entry by entry, stated as relations (no use of the engine). *)
From Coq Require Import String List Arith Bool ZArith Reals Sorting.Sorted.
From Verif Require Import Base BaseOrd BaseNum BaseArr M_paths S_paths M_sde.
Import ListNotations.

(** strict alphabetical order *)
Definition str_lt (a b : string) : Prop := String.compare a b = Lt.

Section Spec.
Context {T : Type} {TO : TOrd T} {V : Type} {NV : Num V} {Wd I : Type}.
Variable tsub : T -> T -> V.
Variable ig : integ T V Wd I.

(** evaluating the sources once each, one after the other, in the order given *)
Inductive draws (t : T) (dt : V) : list string -> Wd -> Wd -> list (string * arr V) -> Prop :=
| draws_nil wd : draws t dt [] wd wd []
| draws_cons id ids wd z wd1 wd2 zs :
    ig_src ig id wd t dt = Ok (wd1, z) -> draws t dt ids wd1 wd2 zs ->
    draws t dt (id :: ids) wd wd2 ((id, z) :: zs).

(** the increment of one entry: 0 + c1*z1 + c2*z2 + ... *)
Definition increment (A zs : list (string * arr V)) (ix : list nat) (d : V) : Prop :=
  exists terms,
    Forall2 (fun '(id, c) p => exists z, In (id, z) zs /\ p = nmul (bget c ix) (bget z ix)) A terms /\
    d = fold_left nadd terms nzero.

(** one Euler-Maruyama step from time [t] to time [t'] *)
Definition euler_step (wd : Wd) (t t' : T) (x : buf V) (wd' : Wd) (x' : buf V) : Prop :=
  exists ids zs A,
    (StronglySorted str_lt ids /\ forall id, In id ids <-> In id (ig_ids ig)) /\
    draws t (tsub t' t) ids wd wd' zs /\
    ig_A ig t (mkArr (ig_w ig) x) = Ok A /\
    forall ix, inb (ig_w ig) ix ->
      exists d, increment A zs ix d /\ x' ix = nadd (x ix) d.

(** a one step recursion along consecutive time points; lists the times, values
    and states of the world gone through *)
Section Chain.
Variable step : Wd -> T -> T -> buf V -> Wd -> buf V -> Prop.
Inductive chain : Wd -> T -> buf V -> list T -> Wd -> list (T * buf V * Wd) -> Prop :=
| chain_nil wd t x : chain wd t x [] wd [(t, x, wd)]
| chain_cons wd t x t' x' wd1 todo wd2 l :
    step wd t t' x wd1 x' -> chain wd1 t' x' todo wd2 l ->
    chain wd t x (t' :: todo) wd2 ((t, x, wd) :: l).

(** one pass: initial values at the first grid point (their logarithm if log=True),
    the recursion along the grid, an output at each output point *)
Definition pass_of (tl grid : list T) (wd wd' : Wd) (ys : list (buf V)) : Prop :=
  exists t todo x l,
    grid = t :: todo /\
    ig_init ig t = Ok x /\
    chain wd t (if ig_log ig then fun ix => nlog (x ix) else x) todo wd' l /\
    Forall2 (fun ti y => exists t x wd, In (t, x, wd) l /\ teqb ti t = true /\ ig_let ig t x = Ok y) tl ys.

(** both passes; outputs are exponentiated if log=True *)
Definition run_of (timeline pc : list T) (i0 : Z) (p0 : nat) (t0 : T) (wd wd' : Wd)
           (xx : list (option (buf V))) : Prop :=
  exists gb gf wd1 yb yf,
    grid_spec true timeline pc t0 gb /\ grid_spec false timeline pc t0 gf /\
    (goes_back i0 -> pass_of (rev (firstn (p0 + 1) timeline)) gb wd wd1 yb) /\
    (~ goes_back i0 -> wd1 = wd) /\
    (goes_forth (length timeline) i0 -> pass_of (skipn p0 timeline) gf wd1 wd' yf) /\
    (~ goes_forth (length timeline) i0 -> wd' = wd1) /\
    length xx = length timeline /\
    let fin (y : buf V) : buf V := if ig_log ig then fun ix => nexp (y ix) else y in
    (goes_forth (length timeline) i0 ->
       forall i y, nth_error yf i = Some y -> nth_error xx (p0 + i) = Some (Some (fin y))) /\
    (goes_back i0 ->
       forall i y, nth_error yb i = Some y -> 0 < i \/ ~ goes_forth (length timeline) i0 ->
         i <= p0 /\ nth_error xx (p0 - i) = Some (Some (fin y))).
End Chain.

Definition euler_run := run_of euler_step.

(** components that never fail, as long as the state of the world satisfies [Adm]
    (which they preserve); shapes broadcast to that of the working array *)
Record total_integ (Adm : Wd -> Prop) : Prop := {
  tot_init : forall t, exists x, ig_init ig t = Ok x;
  tot_A : forall t x, exists A, ig_A ig t (mkArr (ig_w ig) x) = Ok A /\
            Forall (fun '(id, c) => In id (ig_ids ig) /\ can (shp c) (ig_w ig) = true) A;
  tot_src : forall id wd t dt, In id (ig_ids ig) -> Adm wd ->
            exists wd' z, ig_src ig id wd t dt = Ok (wd', z) /\ can (shp z) (ig_w ig) = true /\ Adm wd';
  tot_let : forall t x, exists y, ig_let ig t x = Ok y;
  tot_inext : forall iv wd x i, exists i', ig_info_next ig iv wd x i = Ok i';
  tot_iend : forall iv i, exists i', ig_info_end ig iv i = Ok i' }.
End Spec.

(** sum of a list of real numbers *)
Definition Rlsum (l : list R) : R := fold_right Rplus 0%R l.

(** the coefficient of a differential, 0 if it is missing *)
Definition coef (A : dict (arr R)) (id : string) (ix : list nat) : R :=
  match lookup id A with Some c => bget c ix | None => 0%R end.
