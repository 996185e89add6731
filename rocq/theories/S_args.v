(** Specification vocabulary for the keyword arguments of SDE classes. *)
From Coq Require Import String List Arith Bool.
From Verif Require Import Base M_sde M_args.
Import ListNotations.

Section S.
Context {D : Type}.
Variables (nvars : nat) (ids : list string) (setup : string -> option (sig D)) (init sde more : sig D).

(** [s] is the list of parameters of one of the functions: of the setup method of a source, of init (but
    its first two), of sde (but t and the values), of more *)
Inductive declares : sig D -> Prop :=
| dec_src id s : In id ids -> setup id = Some s -> declares s
| dec_init : declares (skipn 2 init)
| dec_sde : declares (skipn (1 + nvars) sde)
| dec_more : declares more.

(** parameter k is declared with default d (None: no default) *)
Definition declared (k : string) (d : option D) : Prop := exists s, declares s /\ In (k, d) s.

(** names of parameters are not repeated within one function (Python syntax) *)
Definition sigs_ok : Prop := forall s, declares s -> NoDup (map fst s).

(** the value of parameter k *)
Definition value_of (args : dict (option D)) (k : string) (v : D) : Prop :=
  In (k, Some v) args \/ (~ In k (map fst args) /\ declared k (Some v)).

Section Eq.
Variables (hashable : D -> bool) (veq : D -> D -> bool).
(** all declarations of the same parameter agree: either all without a default, or all with equal defaults *)
Definition compatible : Prop := forall k d1 d2, declared k d1 -> declared k d2 ->
  match d1, d2 with
  | None, None => True
  | Some x, Some y => veq x y = true
  | _, _ => False
  end.
Definition hashables : Prop := forall k x, declared k (Some x) -> hashable x = true.
Definition accepted (args : dict (option D)) : Prop :=
  (forall id, In id ids -> setup id <> None) /\
  hashables /\ compatible /\
  (forall k, In k (map fst args) -> exists d, declared k d) /\
  (forall k d, declared k d -> exists v, value_of args k v).
End Eq.
(** the dictionary [a] has, for each of the parameters of [s] and no other name, its value in [all] *)
Definition receives (s : sig D) (all a : dict D) : Prop :=
  NoDup (map fst a) /\ (forall k, In k (map fst a) <-> In k (map fst s)) /\
  forall k v, In (k, v) a -> In (k, v) all.
End S.
