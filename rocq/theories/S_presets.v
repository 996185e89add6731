(** Specification vocabulary for the preset processes. *)
From Coq Require Import String List Arith Bool ZArith Reals.
From Verif Require Import Base BaseOrd BaseNum BaseArr M_paths S_paths S_run M_sde M_presets.
Import ListNotations.

Section S.
Context {Wd : Type}.
(** A source of increments of a given path W: whenever the state of the world is
    admissible, the value over (t, t+dt) is W(t+dt) - W(t), for every time t and
    positive or negative dt (e.g. a process used as a source, or a source with
    memory), and the state stays admissible. *)
Definition additive_source (w : list nat) (dw : Wd -> R -> R -> res (Wd * arr R)) (Adm : Wd -> Prop)
           (W : R -> list nat -> R) : Prop :=
  forall wd t dt, Adm wd ->
    exists wd' z, dw wd t dt = Ok (wd', z) /\ Adm wd' /\ can (shp z) w = true /\
      forall ix, inb w ix -> bget z ix = (W (t + dt) ix - W t ix)%R.
End S.

(** constant parameters given by name *)
Definition const_arg {V} (args : dict (param R V)) (k : string) (a : arr V) : Prop :=
  lookup k args = Some (PConst a).

(** *** Square root diffusions *)
Section Sqrt.
Context {Wd : Type}.
Open Scope R_scope.
Variables (args : dict (param R R)) (dw : Wd -> R -> R -> res (Wd * arr R)).
(** value at time t of the parameter k, if given *)
Definition par (k : string) (t : R) (a : arr R) : Prop := exists z, lookup k args = Some z /\ a = peval t z.

(** dx = k (theta - x+) dt + xi sqrt(x+) dw *)
Definition cir_step (w : list nat) (wd : Wd) (t t' : R) (x : buf R) (wd' : Wd) (x' : buf R) : Prop :=
  exists theta k xi z, par "theta" t theta /\ par "k" t k /\ par "xi" t xi /\
    dw wd t (t' - t) = Ok (wd', z) /\
    forall ix, inb w ix ->
      x' ix = x ix + bget k ix * (bget theta ix - Rmax (x ix) 0) * (t' - t)
                   + bget xi ix * sqrt (Rmax (x ix) 0) * bget z ix.

(** x is the logarithm of the price, y its variance:
    dx = (mu - sigma^2 y+ / 2) dt + sigma sqrt(y+) dw_x,  dy = k (theta - y+) dt + xi sqrt(y+) dw_y;
    [cx], [cy] are the positions of the entries of x and y in the working array *)
Definition heston_step (vp : list nat) (cx cy : list nat -> list nat)
           (wd : Wd) (t t' : R) (X : buf R) (wd' : Wd) (X' : buf R) : Prop :=
  exists mu sigma theta k xi z,
    par "mu" t mu /\ par "sigma" t sigma /\ par "theta" t theta /\ par "k" t k /\ par "xi" t xi /\
    dw wd t (t' - t) = Ok (wd', z) /\
    forall ix, inb vp ix ->
      let y := Rmax (X (cy ix)) 0 in
      X' (cx ix) = X (cx ix) + (bget mu ix - (bget sigma ix)^2 * y / 2) * (t' - t)
                             + bget sigma ix * sqrt y * bget z (cx ix) /\
      X' (cy ix) = X (cy ix) + bget k ix * (bget theta ix - y) * (t' - t)
                             + bget xi ix * sqrt y * bget z (cy ix).
End Sqrt.

(** Numbers with an invalid value (None, NumPy's nan): square roots of negative
    numbers, logarithms of numbers that are not positive and divisions by zero
    are invalid, and so is every result computed from an invalid value. *)
Definition nan1 (f : R -> R) (ok : R -> bool) (x : option R) : option R :=
  match x with Some x => if ok x then Some (f x) else None | None => None end.
Definition nan2 (f : R -> R -> R) (ok : R -> R -> bool) (x y : option R) : option R :=
  match x, y with Some x, Some y => if ok x y then Some (f x y) else None | _, _ => None end.
Definition anyR (_ _ : R) : bool := true.
Definition Num_nan : Num (option R) := {|
  nzero := Some 0%R; none := Some 1%R; ntwo := Some 2%R;
  nadd := nan2 Rplus anyR; nsub := nan2 Rminus anyR; nmul := nan2 Rmult anyR;
  ndiv := nan2 Rdiv (fun _ y => if Req_EM_T y 0 then false else true);
  nmax := nan2 Rmax anyR;
  nsqrt := nan1 sqrt (fun x => if Rlt_dec x 0 then false else true);
  nexp := nan1 exp (fun _ => true);
  nlog := nan1 ln (fun x => if Rlt_dec 0 x then true else false);
  nlt := fun x y => match x, y with Some x, Some y => if Rlt_dec x y then true else false | _, _ => false end;
  nofnat := fun n => Some (INR n) |}.
(** time increments as numbers *)
Definition nan_sub (a b : R) : option R := Some (a - b)%R.
(** an array with valid entries, seen from the shape w *)
Definition valid_arr (w : list nat) (a : arr (option R)) : Prop := forall ix, inb w ix -> bget a ix <> None.

(** parameters with valid values, and a source with valid values *)
Definition valid_args (args : dict (param R (option R))) (w : list nat) (ks : list string) : Prop :=
  forall k z t, In k ks -> lookup k args = Some z -> valid_arr w (peval t z).
Definition valid_dw {Wd : Type} (dw : Wd -> R -> option R -> res (Wd * arr (option R))) (w : list nat) : Prop :=
  forall wd t dt wd' z, dw wd t (Some dt) = Ok (wd', z) -> valid_arr w z.

(** *** The price given at an output point by full_heston_process and by heston_process *)
Definition same_price {V : Type} {NV : Num V} (vshape : list nat) (paths : nat) (a b : option (buf V)) : Prop :=
  exists Y y X Z, a = Some Y /\ b = Some y /\ full_heston_result vshape paths Y = Ok (X, Z) /\
    aeq X (heston_result vshape paths y).

(** *** Factors of a Hull-White process *)
Section Slice.
Context {T V Wd : Type} {NV : Num V}.
(** [af] has the entries of factor [f] of [a], where factors are along the second last axis *)
Definition slice_of (vp : list nat) (f : nat) (a af : arr V) : Prop :=
  can (shp af) vp = true /\ forall ix, inb vp ix -> bget af ix = bget a (ins2 f ix).
Definition slice_args (vp : list nat) (f : nat) (args argsf : dict (param T V)) : Prop :=
  Forall2 (fun p q => fst p = fst q /\ forall t, slice_of vp f (peval t (snd p)) (peval t (snd q))) args argsf.
Definition slice_src (vp : list nat) (f : nat) (dw dwf : Wd -> T -> V -> res (Wd * arr V)) : Prop :=
  forall wd t dt wd' z, dw wd t dt = Ok (wd', z) ->
    exists zf, dwf wd t dt = Ok (wd', zf) /\ slice_of vp f z zf.
(** the sum of the values of several buffers at one index, from the first to the last *)
Definition sum_at (ys : list (buf V)) (ix : list nat) : V := fold_left (fun acc (y : buf V) => nadd acc (y ix)) ys nzero.
End Slice.

(** *** Jump counters *)
Section Jumps.
Context {T : Type} {TO : TOrd T} {V Wd : Type} {NV : Num V}.
(** the points gone through after an output point, up to and including the next one [ti] *)
Definition seg_of (tl : list T) (ti : T) (seg : list (T * buf V * Wd)) : Prop :=
  exists pre e, seg = pre ++ [e] /\ teqb ti (fst (fst e)) = true /\
                Forall (fun p => memT (fst (fst p)) tl = false) pre.
(** [dn] gives the number of jumps realized by the source in the step just made, [l] are
    the points gone through after the first one *)
Definition jumps_counted (tsub : T -> T -> V) (w : list nat) (paths : nat) (dn : Wd -> arr V)
           (tl : list T) (l : list (T * buf V * Wd)) (j : jinfo V) : Prop :=
  (forall ix, inb w ix -> jump_count j ix = fold_left (fun acc e => nadd acc (bget (dn (snd e)) ix)) l nzero) /\
  length (jump_rate j) = length tl /\
  (1 < length tl -> nth_error (jump_rate j) (length tl - 1) = nth_error (jump_rate j) (length tl - 2)) /\
  exists segs, concat segs = l /\ Forall2 (seg_of tl) (List.tl tl) segs /\
    forall i a b seg, nth_error tl i = Some a -> nth_error tl (S i) = Some b -> nth_error segs i = Some seg ->
      nth_error (jump_rate j) i =
      Some (fold_left (fun acc e => nadd acc (ndiv (ndiv (asum (dn (snd e))) (tsub b a)) (nofnat paths))) seg nzero).
End Jumps.
