(** Shared vocabulary: Python exceptions as values, Python-style indexing. *)
From Coq Require Import List ZArith Bool Lia.
Import ListNotations.

(** Exceptions raised by the code in /repo.  [OutOfFuel] is not a Python
    exception: it marks the exhaustion of the recursion budget of a modelled
    [while] loop; theorems discharge or exclude it. *)
Inductive exn : Set :=
| ValueError | TypeError | IndexError | KeyError | RuntimeError
| AssertionError | AttributeError | StopIteration | SyntaxError
| LinAlgError | OutOfFuel.

Inductive res (A : Type) : Type :=
| Ok (a : A)
| Err (e : exn).
Arguments Ok {A} a.
Arguments Err {A} e.

Definition rbind {A B} (m : res A) (f : A -> res B) : res B :=
  match m with Ok a => f a | Err e => Err e end.

Definition rmap {A B} (f : A -> B) (m : res A) : res B :=
  match m with Ok a => Ok (f a) | Err e => Err e end.

Declare Scope res_scope.
Delimit Scope res_scope with res.
Notation "x <- m ;; k" := (rbind m (fun x => k))
  (at level 61, m at next level, right associativity) : res_scope.
Notation "' p <- m ;; k" := (rbind m (fun p => k))
  (at level 61, p pattern, m at next level, right associativity) : res_scope.

Definition is_ok {A} (m : res A) : bool :=
  match m with Ok _ => true | Err _ => false end.

(** Python/NumPy integer index [i] into a sequence of length [n]:
    the position it denotes, or [None] if out of range. *)
Definition norm_index (n : nat) (i : Z) : option nat :=
  let zn := Z.of_nat n in
  if ((0 <=? i) && (i <? zn))%Z then Some (Z.to_nat i)
  else if ((- zn <=? i) && (i <? 0))%Z then Some (Z.to_nat (zn + i))
  else None.

(** [l[i] = y] for an in-range position; unchanged otherwise. *)
Fixpoint upd {A} (l : list A) (i : nat) (y : A) : list A :=
  match l, i with
  | [], _ => []
  | _ :: l', O => y :: l'
  | x :: l', S i' => x :: upd l' i' y
  end.
