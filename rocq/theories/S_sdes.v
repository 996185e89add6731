(** Specification vocabulary for systems of equations. *)
From Coq Require Import String List Arith Bool ZArith Reals Sorting.Sorted.
From Verif Require Import Base BaseNum BaseArr M_sde S_sde.
Import ListNotations.

(** Entry [ix] of component [k] (of shape vshape + (paths,)) is entry [comp k ix] of
    the packed array: with addaxis components are stacked along a new axis before
    the paths axis, otherwise they follow each other along the last values axis,
    of size [d] in each of them. *)
Definition comp (addaxis : bool) (vshape : list nat) (k : nat) (ix : list nat) : list nat :=
  let p := last ix 0 in
  let pre := removelast ix in
  if addaxis then pre ++ [k; p]
  else removelast pre ++ [k * last vshape 0 + last pre 0; p].

(** addaxis=False requires at least one values axis *)
Definition packable (addaxis : bool) (vshape : list nat) : Prop := addaxis = true \/ vshape <> [].

(** equality of returned dictionaries, up to out of bounds entries *)
Definition dict_eq {V} (d d' : dict (arr V)) : Prop :=
  Forall2 (fun a b => fst a = fst b /\ aeq (snd a) (snd b)) d d'.

(** One step of a system, over the real numbers: sources are drawn once each in
    ascending order of id; the equations see the components of the current
    value; entry [ix] of component [k] is incremented by the sum, over all sources,
    of the coefficient in the [k]-th dictionary (0 if missing) times entry
    [comp k ix] (the slice of component k) of the source value. *)
Definition system_step {Wd I} (q : nat) (addaxis : bool) (vshape : list nat) (paths : nat)
           (args : dict (param R R)) (sde : R -> list (arr R) -> dict (arr R) -> res (sdeval R))
           (tsub : R -> R -> R) (ig : integ R R Wd I)
           (wd : Wd) (t t' : R) (x : buf R) (wd' : Wd) (x' : buf R) : Prop :=
  let vp := (vshape ++ [paths])%list in
  exists ids zs xs As,
    (StronglySorted str_lt ids /\ forall id, In id ids <-> In id (ig_ids ig)) /\
    draws ig t (tsub t' t) ids wd wd' zs /\
    length xs = q /\
    (forall k y, nth_error xs k = Some y -> shp y = vp /\
       forall ix, inb vp ix -> dat y ix = x (comp addaxis vshape k ix)) /\
    length As = q /\
    sde t xs (map (fun '(k, z) => (k, peval t z)) args) = Ok (RSeq (map (fun d => RDict d) As)) /\
    Forall (fun d => incl (keys d) (ig_ids ig)) As /\
    NoDup (keys zs) /\
    forall k Ak, nth_error As k = Some Ak -> forall ix, inb vp ix ->
      x' (comp addaxis vshape k ix) =
      (x (comp addaxis vshape k ix) +
       Rlsum (map (fun '(id, z) => coef Ak id ix * bget z (comp addaxis vshape k ix)) zs))%R.

(** Equation [i] of the system does not refer to the other components: applied
    to component i alone (up to out of bounds entries) [sde1] returns the same
    dictionary. *)
Definition uncoupled (i : nat) (args : dict (param R R))
           (sde : R -> list (arr R) -> dict (arr R) -> res (sdeval R))
           (sde1 : R -> arr R -> dict (arr R) -> res (sdeval R)) : Prop :=
  forall t xs As x Ai x',
    let av := map (fun '(k, z) => (k, peval t z)) args in
    sde t xs av = Ok (RSeq (map (fun d => RDict d) As)) ->
    nth_error xs i = Some x -> nth_error As i = Some Ai -> aeq x x' ->
    NoDup (keys Ai) /\ exists A', sde1 t x' av = Ok (RDict A') /\ dict_eq Ai A'.

(** initial values of component k: a scalar is common to all components,
    otherwise the k-th entry along the first axis *)
Definition x0_comp {V} (x0 : arr V) (k : nat) : arr V :=
  match shp x0 with
  | [] => x0
  | _ :: s => mkArr s (fun ix => dat x0 (k :: ix))
  end.
Definition x0_fits {V} (q : nat) (vp : list nat) (x0 : arr V) : Prop :=
  shp x0 = [] \/ exists s, shp x0 = q :: s /\ can s vp = true.
