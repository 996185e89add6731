(** Model of the treatment of keyword arguments by SDE classes
    (/repo/sdepy/integration.py 969-1078, 1099-1113, 1683-1691;
    /repo/sdepy/infrastructure.py 256-265).

    Values are an arbitrary type [D].  A default, or a given value, is [None]
    when it is [inspect.Signature.empty].  [hashable] tells whether a value may
    be an element of a Python set, [veq] is Python's equality on hashable values. *)
From Coq Require Import String List Arith Bool.
From Verif Require Import Base M_sde.
Import ListNotations.
Local Open Scope res_scope.

(** Python's [d[k] = a] *)
Fixpoint dset {A} (k : string) (a : A) (d : dict A) : dict A :=
  match d with
  | [] => [(k, a)]
  | (k', b) :: d' => if String.eqb k k' then (k, a) :: d' else (k', b) :: dset k a d'
  end.
(** [d.update(e)], [{**d, **e}] *)
Definition dupdate {A} (d e : dict A) : dict A := fold_left (fun d p => dset (fst p) (snd p) d) e d.
Definition keys {A} (d : dict A) : list string := map fst d.
Definition mem_str (k : string) (l : list string) : bool := existsb (String.eqb k) l.

Section Args.
Context {D : Type}.
Variables (hashable : D -> bool) (veq : D -> D -> bool).

(** [(name, default)] pairs, infrastructure.py 259-265 *)
Definition sig := dict (option D).

(** equality and hash of defaults: the empty marker is hashable and equal to itself only *)
Definition oveq (a b : option D) : bool :=
  match a, b with Some x, Some y => veq x y | None, None => true | _, _ => false end.
Definition ohashable (a : option D) : bool := match a with Some x => hashable x | None => true end.
(** elements of [set(l)] *)
Definition pyset (l : list (option D)) : list (option D) :=
  fold_left (fun s x => if existsb (oveq x) s then s else s ++ [x]) l [].

Record expected := mkExp {
  ex_args : sig;                     (* self._expected_args *)
  ex_src : list (string * list string);  (* self._source_args_keys *)
  ex_init : list string; ex_sde : list string; ex_more : list string }.

(** the defaults declared for k by the signatures Ds *)
Definition defaults (Ds : list sig) (k : string) : list (option D) :=
  flat_map (fun s => match lookup k s with Some z => [z] | None => [] end) Ds.

Fixpoint mapM {A B} (f : A -> res B) (l : list A) : res (list B) :=
  match l with
  | [] => Ok []
  | a :: l' => b <- f a ;; bs <- mapM f l' ;; Ok (b :: bs)
  end.

(** [_inspect_args_defaults], integration.py 985-1035.  [ids] are self.sources in
    the order they are iterated on; [setup id] is the signature of the method
    source_id, if it exists (check at 969-976). *)
Definition inspect_args (nvars : nat) (ids : list string) (setup : string -> option sig)
           (init sde more : sig) : res expected :=
  srcs <- mapM (fun id => match setup id with Some s => Ok (id, s) | None => Err ValueError end) ids ;;
  let i := skipn 2 init in
  let s := skipn (1 + nvars) sde in
  let Ds := (map snd srcs ++ [i; s; more])%list in
  let exp := fold_left dupdate Ds [] in
  if forallb (fun k => forallb ohashable (defaults Ds k)) (keys exp) then
    if existsb (fun k => Nat.ltb 1 (List.length (pyset (defaults Ds k)))) (keys exp)
    then Err TypeError
    else Ok (mkExp exp (map (fun p => (fst p, keys (snd p))) srcs) (keys i) (keys s) (keys more))
  else Err TypeError (* unhashable type, in set() *).

(** SDEs._inspect_args_defaults, integration.py 1683-1691 *)
Definition sdes_inspect_args (q : nat) (ids : list string) (setup : string -> option sig)
           (init sde more : sig) : res expected :=
  if Nat.ltb q 1 then Err ValueError else inspect_args q ids setup init sde more.

(** [_consolidate_args], integration.py 1037-1055; the values of the result are not empty *)
Definition consolidate (exp : sig) (args : dict (option D)) : res (dict D) :=
  let all := dupdate exp args in
  if existsb (fun k => negb (mem_str k (keys exp))) (keys all) then Err TypeError
  else mapM (fun p => match snd p with Some v => Ok (fst p, v) | None => Err TypeError end) all.

(** [_get_args], integration.py 982-984 *)
Definition get_args {A} (ks : list string) (args : dict A) : dict A :=
  filter (fun p => mem_str (fst p) ks) args.

(** integration.py 1107-1113: [fi], [fs] are _const_param_setup, _variable_param_setup *)
Definition prep {A} (f : A -> res A) (ks : list string) (args : dict A) : res (dict A) :=
  new <- mapM (fun p => v <- f (snd p) ;; Ok (fst p, v)) (get_args ks args) ;;
  Ok (dupdate args new).
Definition prepare (fi fs : D -> res D) (e : expected) (args : dict D) : res (dict D) :=
  a <- prep fi (ex_init e) args ;; prep fs (ex_sde e) a.

(** arguments of the calls made by __init__, begin and A: integration.py 1071-1076, 1140, 1161, 1220 *)
Record calls := mkCalls {
  c_src : list (string * dict D); c_init : dict D; c_sde : dict D; c_more : dict D }.
Definition dispatch (e : expected) (args : dict D) : calls :=
  mkCalls (map (fun p => (fst p, get_args (snd p) args)) (ex_src e))
          (get_args (ex_init e) args) (get_args (ex_sde e) args) (get_args (ex_more e) args).

Definition sde_args (nvars : nat) (ids : list string) (setup : string -> option sig)
           (init sde more : sig) (args : dict (option D)) : res (expected * dict D) :=
  e <- inspect_args nvars ids setup init sde more ;;
  a <- consolidate (ex_args e) args ;;
  Ok (e, a).
End Args.
Arguments sig : clear implicits.
Arguments expected : clear implicits.
Arguments calls : clear implicits.
