(** Arithmetic used by the modelled code, as operations on an arbitrary type of
    numbers (no law assumed); instances on the reals and on the integers (the
    latter for executable examples only). *)
From Coq Require Import ZArith Reals.

Class Num (V : Type) := {
  nzero : V; none : V; ntwo : V;
  nadd : V -> V -> V; nsub : V -> V -> V; nmul : V -> V -> V; ndiv : V -> V -> V;
  nmax : V -> V -> V; nsqrt : V -> V; nexp : V -> V; nlog : V -> V;
  nlt : V -> V -> bool; nofnat : nat -> V }.

#[global] Instance Num_R : Num R := {
  nzero := 0%R; none := 1%R; ntwo := 2%R;
  nadd := Rplus; nsub := Rminus; nmul := Rmult; ndiv := Rdiv;
  nmax := Rmax; nsqrt := sqrt; nexp := exp; nlog := ln;
  nlt := fun a b => if Rlt_dec a b then true else false; nofnat := INR }.

#[global] Instance Num_Z : Num Z := {
  nzero := 0%Z; none := 1%Z; ntwo := 2%Z;
  nadd := Z.add; nsub := Z.sub; nmul := Z.mul; ndiv := Z.div;
  nmax := Z.max; nsqrt := Z.sqrt; nexp := fun x => (2 ^ x)%Z; nlog := Z.log2;
  nlt := Z.ltb; nofnat := Z.of_nat }.
