(** Specification vocabulary for kfunc. *)
From Coq Require Import String List Arith Bool ZArith.
From Verif Require Import Base M_sde M_args M_kfun.
Import ListNotations.

(** the value of k in successive overrides: the one of the last dictionary that has it *)
Fixpoint overrides {V} (ds : list (dict V)) (k : string) : option V :=
  match ds with
  | [] => None
  | d :: ds' => match overrides ds' k with Some v => Some v | None => lookup k d end
  end.

Section S.
Context {V W S : Type}.
Variable c : kcls V W S.

(** the wrapped callable: instantiated with the parameters p, and called *)
Definition raw (w : W) (p : dict V) (vars : list V) (kw : dict V) : W * res V :=
  match kc_init c w p with
  | (w1, Err e) => (w1, Err e)
  | (w1, Ok s) => let '(w2, (_, r)) := kc_call c w1 s vars kw in (w2, r)
  end.

(** f with keywords a, then b, ... then z: the chain of calls ends with instance [id] *)
Inductive made (w : W) (h : heap) : list (dict V) -> W -> @heap V S -> nat -> Prop :=
| made_new a w' h' id : kf_new c w h [] a = (w', h', Ok (OObj id)) -> made w h [a] w' h' id
| made_call ds b w1 h1 id1 w2 h2 id2 :
    made w h ds w1 h1 id1 -> kf_call c w1 h1 id1 [] b = (w2, h2, Ok (OObj id2)) ->
    made w h (ds ++ [b]) w2 h2 id2.

(** a keyword is a variable *)
Definition is_var (k : string) : Prop := In k (ks_call (kc_spec c)).
Definition only_vars (kw : dict V) : Prop := forall k, In k (map fst kw) -> is_var k.
Definition no_vars (kw : dict V) : Prop := forall k, In k (map fst kw) -> ~ is_var k.

(** sequences of calls of any kind *)
Inductive op := New (vars : list V) (kw : dict V) | Call (id : nat) (vars : list V) (kw : dict V).
Definition run1 (w : W) (h : heap) (o : op) : W * @heap V S :=
  match o with
  | New vars kw => fst (kf_new c w h vars kw)
  | Call id vars kw => fst (kf_call c w h id vars kw)
  end.
Fixpoint run_ops (w : W) (h : heap) (l : list op) : W * @heap V S :=
  match l with
  | [] => (w, h)
  | o :: l' => let '(w', h') := run1 w h o in run_ops w' h' l'
  end.
(** evaluating an instance does not change its state *)
Definition stateless : Prop := forall w s vars kw, fst (snd (kc_call c w s vars kw)) = s.
End S.

(** not a parameter collecting keywords *)
Definition proper {V} (p : sparam V) : Prop := p_kind p <> VarKw.
