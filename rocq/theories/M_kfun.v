(** Model of the kfunc decorator (/repo/sdepy/kfun.py 40-355).

    - [V]: Python values; [W]: state of the outer world; [S]: state of an instance of the
      wrapped class, as set by its __init__ and possibly changed by its __call__.
    - Instances are kept in a heap, a list that only grows; an identity is a position in it.
    - Not modelled: subclasses of kfunc classes (124-139), warnings, names and docstrings. *)
From Coq Require Import String List Arith Bool ZArith.
From Verif Require Import Base M_sde M_args.
Import ListNotations.
Local Open Scope res_scope.

(** *** Wrapping *)
Inductive pkind := PosOnly | PosOrKw | VarPos | KwOnly | VarKw.
Definition kind_eqb (a b : pkind) : bool :=
  match a, b with
  | PosOnly, PosOnly | PosOrKw, PosOrKw | VarPos, VarPos | KwOnly, KwOnly | VarKw, VarKw => true
  | _, _ => false
  end.
Section Wrap.
Context {V : Type}.
(** a parameter of a function: inspect.Parameter *)
Record sparam := mkP { p_name : string; p_kind : pkind; p_default : option V }.

(** the attributes _kfunc_init_args, _kfunc_call_args *)
Record kspec := mkSpec { ks_init : dict (option V); ks_call : list string }.

Definition not_varkw (p : sparam) : bool := negb (kind_eqb (p_kind p) VarKw).
Definition named (p : sparam) : string * option V := (p_name p, p_default p).

(** [_kfunc_decorate_class], kfun.py 57-110: signatures of __init__ and __call__
    include self.  [cls_kfunc]: the class is a kfunc already; [cls_new], [cls_init],
    [cls_call]: the class or one of its bases (but object) defines the method. *)
Record klass := mkKlass { cls_kfunc : bool; cls_new : bool; cls_init : bool; cls_call : bool;
                          init_sig : list sparam; call_sig : list sparam }.
Definition wrap_class (c : klass) : res kspec :=
  if negb (cls_kfunc c) && cls_new c then Err TypeError else
  if negb (cls_kfunc c) && negb (cls_init c && cls_call c) then Err TypeError else
  let i := List.tl (filter not_varkw (init_sig c)) in
  let k := List.tl (filter not_varkw (call_sig c)) in
  if existsb (fun p => negb (kind_eqb (p_kind p) KwOnly)) i then Err TypeError else
  let ki := map named i in
  let kc := map p_name k in
  if existsb (fun n => mem_str n kc) (M_args.keys ki) then Err TypeError else
  Ok (mkSpec ki kc).

(** [_kfunc_decorate_function], kfun.py 204-245: the wrapping class has methods
    __init__, with any keywords, and __call__, whose signature is that of f. *)
Definition self_p : sparam := mkP "self" PosOrKw None.
Definition args_p : sparam := mkP "args" VarKw None.
Definition fun_klass (fsig : list sparam) : klass := mkKlass false false true true [self_p; args_p] fsig.
Definition wrap_function (is_class : bool) (nvar : Z) (fsig : list sparam) : res kspec :=
  if is_class then Err SyntaxError else
  let s := filter not_varkw fsig in
  if negb ((0 <? nvar)%Z && (nvar <=? Z.of_nat (List.length s))%Z) then Err ValueError else
  let n := Z.to_nat nvar in
  if existsb (fun p => negb (kind_eqb (p_kind p) KwOnly)) (skipn n s) then Err TypeError else
  _ <- wrap_class (fun_klass fsig) ;;
  Ok (mkSpec (map named (skipn n s)) (map p_name (firstn n s))).

(** [kfunc], kfun.py 251-355: used as kfunc(f) or kfunc(nvar=n)(f) or both. *)
Inductive callable := CClass (c : klass) | CFun (fsig : list sparam).
Definition kfunc (f : option callable) (nvar : option Z) : res (callable -> res kspec) :=
  match f, nvar with
  | Some (CClass c), None => Ok (fun _ => wrap_class c)   (* kfunc(f) is the wrapper itself *)
  | None, Some n => Ok (fun g => match g with
                                 | CClass _ => wrap_function true n []
                                 | CFun s => wrap_function false n s end)
  | _, _ => Err SyntaxError
  end.
End Wrap.
Arguments sparam : clear implicits.
Arguments kspec : clear implicits.
Arguments klass : clear implicits.
Arguments callable : clear implicits.

(** *** Instances *)
Section Run.
Context {V W S : Type}.
Record kcls := mkCls {
  kc_spec : kspec V;
  kc_init : W -> dict V -> W * res S;                              (* f.__init__ with keywords *)
  kc_call : W -> S -> list V -> dict V -> W * (S * res V) }.       (* f.__call__ with variables and keywords *)
Record obj := mkObj { o_params : dict V; o_parent : option nat; o_state : S }.
Definition heap := list obj.
(** what a call returns: a value, or an instance *)
Inductive out := OVal (v : V) | OObj (id : nat).
Variable c : kcls.

(** [_kfunc_split_args], kfun.py 40-45 *)
Definition is_call (k : string) : bool := mem_str k (ks_call (kc_spec c)).
Definition call_args (kw : dict V) : dict V := filter (fun p => is_call (fst p)) kw.
Definition init_args (kw : dict V) : dict V := filter (fun p => negb (is_call (fst p))) kw.
Definition nonempty {A} (l : list A) : bool := match l with [] => false | _ => true end.

(** kfun.py 141-151, 163-180: make an object with the given parameters, return it or call it *)
Definition make (w : W) (h : heap) (params : dict V) (parent : option nat) (vars : list V) (ckw : dict V)
  : W * heap * res out :=
  match kc_init c w params with
  | (w1, Err e) => (w1, h, Err e)
  | (w1, Ok s) =>
      if nonempty vars || nonempty ckw then
        let '(w2, (s', r)) := kc_call c w1 s vars ckw in
        (w2, h ++ [mkObj params parent s'], rmap OVal r)
      else (w1, h ++ [mkObj params parent s], Ok (OObj (List.length h)))
  end.

(** calling the class: [__new__], kfun.py 124-151 *)
Definition kf_new (w : W) (h : heap) (vars : list V) (kw : dict V) : W * heap * res out :=
  make w h (init_args kw) None vars (call_args kw).

(** calling an instance: [__call__], kfun.py 154-180 *)
Definition kf_call (w : W) (h : heap) (id : nat) (vars : list V) (kw : dict V) : W * heap * res out :=
  match nth_error h id with
  | None => (w, h, Err AttributeError)
  | Some o =>
      if nonempty (init_args kw) then
        make w h (dupdate (o_params o) (init_args kw)) (Some id) vars (call_args kw)
      else
        let '(w1, (s', r)) := kc_call c w (o_state o) vars (call_args kw) in
        (w1, upd h id (mkObj (o_params o) (o_parent o) s'), rmap OVal r)
  end.

(** property [params], kfun.py 183-196; [sde_args] is self.args for SDE classes *)
Definition params (o : obj) (sde_args : dict V) : dict (option V) :=
  let up := map (fun p => (fst p, Some (snd p))) in
  dupdate (dupdate (ks_init (kc_spec c)) (up (o_params o))) (up sde_args).
End Run.
Arguments kcls : clear implicits.
Arguments obj : clear implicits.
Arguments out : clear implicits.

(** the class made from a function (kfun.py 227-239): the state is the dictionary of parameters *)
Definition fun_cls {V W} (spec : kspec V) (f : W -> list V -> dict V -> W * res V) : kcls V W (dict V) :=
  mkCls spec (fun w a => (w, Ok a))
        (fun w p vars kw =>
           if existsb (fun k => mem_str k (M_args.keys p)) (M_args.keys kw) then (w, (p, Err TypeError))
           else let '(w', r) := f w vars (kw ++ p) in (w', (p, r))).
