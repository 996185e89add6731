(** Model of how the sources of an SDE instance are set up (/repo/sdepy/infrastructure.py 209-243, 1985-2003;
    integration.py 1294-1423) and of the integrate decorator (integration.py 1838-1965).

    - Sources without memory draw from a generator whose state is the state of the world.
    - A Python function with positional-or-keyword parameters: [pf_params] are the names of the parameters and their
      defaults, [pf_body] gets the values of all of them, in order.  The values are times or arrays.
    - q is not negative. *)
From Coq Require Import String List Arith Bool ZArith.
From Verif Require Import Base BaseOrd BaseNum BaseArr BaseNd BaseIdx M_paths M_process M_source M_sde M_presets.
Import ListNotations.
Local Open Scope res_scope.
Local Open Scope string_scope.

(** *** sources given to an SDE: nothing, a class, an object (with paths and vshape, if it has them and is callable) *)
Inductive given_source (S : Type) :=
| GNone
| GClass (new : nat -> list nat -> res S)
| GObject (attrs : option (nat * list nat)) (s : S).
Arguments GNone {S}. Arguments GClass {S}. Arguments GObject {S}.
(** infrastructure.py 235-243 *)
Definition source_setup {S} (dz : given_source S) (source_type : nat -> list nat -> res S)
           (paths : nat) (vshape : list nat) : res S :=
  match dz with
  | GNone => source_type paths vshape
  | GClass new => new paths vshape
  | GObject attrs s => _ <- check_source attrs paths vshape ;; Ok s
  end.

Section Sources.
Context {V : Type} {NV : Num V} {G : Type}.
Variables (normal : list nat -> @draws G (arr V)) (mvnormal : arr V -> list nat -> @draws G (arr V))
          (poisson : arr V -> list nat -> @draws G (arr Z)) (rvs : V -> nat -> nat -> @draws G (arr V)) (zval : Z -> V).
(** a source, as something that may be called *)
Definition src (A : Type) : Type := arr V -> arr V -> @draws G A.

Definition wiener_source (corr rho : input V) (paths : nat) (vshape : list nat) : res (src (arr V)) :=
  c <- wiener_new vshape corr rho ;; Ok (wiener_call normal mvnormal paths vshape c).
Definition poisson_source (lam : input V) (paths : nat) (vshape : list nat) : res (src (arr Z)) :=
  l <- poisson_new paths vshape lam ;; Ok (poisson_call poisson paths vshape l).
(** infrastructure.py 1985-2003; the attributes dn_value and y_value of the source are left out of its value *)
Definition cpoisson_source (dn : given_source (src (arr Z))) (lam : input V) (paths : nat) (vshape : list nat)
  : res (src (arr V)) :=
  d <- source_setup dn (poisson_source lam) paths vshape ;;
  Ok (fun t dt => dbind (cpoisson_call d rvs paths vshape t dt) (fun '(z, _, _) => dret z)).

(** SDE.source_dw, source_dn, source_dj, integration.py 1312-1423 *)
Definition source_dw (dw : given_source (src (arr V))) corr rho paths wshape :=
  source_setup dw (wiener_source corr rho) paths wshape.
Definition source_dn (dn : given_source (src (arr Z))) lam paths wshape :=
  source_setup dn (poisson_source lam) paths wshape.
Definition source_dj (dj : given_source (src (arr V))) dn lam paths wshape :=
  source_setup dj (cpoisson_source dn lam) paths wshape.

(** sources[id](t, dt) during the integration *)
Definition at_step (s : src (arr V)) (g : G) (t dt : V) : res (G * arr V) :=
  match s (ascalar t) (ascalar dt) g with (Ok z, g') => Ok (g', z) | (Err e, _) => Err e end.
(** SDE._sources_setup, integration.py 1071-1078, for the sources of the class: those among 'dt', 'dw', 'dn', 'dj' *)
Record src_args := mkSrcArgs {
  a_dw : given_source (src (arr V)); a_corr : input V; a_rho : input V;
  a_dn : given_source (src (arr Z)); a_lam : input V; a_dj : given_source (src (arr V)) }.
Definition setup_one (a : src_args) (paths : nat) (wshape : list nat) (id : string) : res (G -> V -> V -> res (G * arr V)) :=
  if String.eqb id "dt" then Ok source_dt
  else if String.eqb id "dw" then s <- source_dw (a_dw a) (a_corr a) (a_rho a) paths wshape ;; Ok (at_step s)
  else if String.eqb id "dn" then
    s <- source_dn (a_dn a) (a_lam a) paths wshape ;;
    Ok (at_step (fun t dt => dbind (s t dt) (fun n => dret (amap zval n))))
  else if String.eqb id "dj" then s <- source_dj (a_dj a) (a_dn a) (a_lam a) paths wshape ;; Ok (at_step s)
  else Err ValueError.
Definition sources_setup (a : src_args) (ids : list string) (paths : nat) (wshape : list nat)
  : res (string -> G -> V -> V -> res (G * arr V)) :=
  l <- mapr (fun id => s <- setup_one a paths wshape id ;; Ok (id, s)) ids ;;
  Ok (fun id => match lookup id l with Some s => s | None => fun _ _ _ => Err KeyError end).
End Sources.

(** *** Python functions *)
Section Fun.
Context {T : Type} {V : Type} {NV : Num V}.
Inductive val := VT (t : T) | VA (a : arr V).
Record pyfun := mkFun { pf_params : list (string * option val); pf_body : list val -> res (sdeval V) }.
(** calling f with positional arguments pos and keyword arguments kw: the values of the parameters *)
Fixpoint bind_args (ps : list (string * option val)) (pos : list val) (kw : dict val) : res (list val) :=
  match ps, pos with
  | [], [] => Ok []
  | [], _ :: _ => Err TypeError
  | (k, _) :: ps', v :: pos' =>
      if mem k (keys kw) then Err TypeError else r <- bind_args ps' pos' kw ;; Ok (v :: r)
  | (k, d) :: ps', [] =>
      v <- match lookup k kw, d with Some v, _ => Ok v | None, Some v => Ok v | None, None => Err TypeError end ;;
      r <- bind_args ps' [] kw ;; Ok (v :: r)
  end.
Definition pycall (f : pyfun) (pos : list val) (kw : dict val) : res (sdeval V) :=
  if forallb (fun k => mem k (map fst (pf_params f))) (keys kw)
  then l <- bind_args (pf_params f) pos kw ;; pf_body f l
  else Err TypeError.

(** *** _SDE_from_function, integration.py 1843-1895 *)
(** the class attributes *)
Record sclass := mkCls { c_q : nat; c_ids : list string; c_log : bool; c_addaxis : bool }.
(** np.array(1.), as a time *)
Variable tone : T.
(** set(l) *)
Definition set_of (l : list string) : list string := nodup string_dec l.
Definition subset (l m : list string) : bool := forallb (fun k => mem k m) l.
Definition set_eq (l m : list string) : bool := subset l m && subset m l.
Definition test_value (f : pyfun) : res (sdeval V) :=
  match pycall f [] [] with
  | Ok v => Ok v
  | Err _ => match pycall f [VT tone; VA (ascalar none)] [] with Ok v => Ok v | Err _ => Err TypeError end
  end.
(** z.keys() *)
Definition keys_of (z : sdeval V) : res (list string) :=
  match z with RDict d => Ok (keys d) | _ => Err AttributeError end.
Definition from_function (f : pyfun) (q : option nat) (sources : option (list string)) (log addaxis : bool) : res sclass :=
  match q, sources with
  | Some n, Some l => Ok (mkCls n (set_of l) log addaxis)
  | _, _ =>
      v <- test_value f ;;
      '(neq, vs) <- match v with
                    | RSeq [] => Err ValueError
                    | RSeq l => Ok (List.length l, l)
                    | _ => Ok (0, [v])
                    end ;;
      ks <- mapr keys_of vs ;;
      let ids := set_of (List.concat ks) in
      if (match q with Some n => negb (Nat.eqb n neq) | None => false end)
         || (match sources with Some l => negb (set_eq (set_of l) ids) | None => false end)
      then Err TypeError
      else Ok (mkCls neq ids log addaxis)
  end.

(** the method sde of the class, as called by SDE.A (integration.py 1216-1225) and SDEs.A (1711-1731) *)
Definition values_kw (args : dict (arr V)) : dict val := map (fun '(k, a) => (k, VA a)) args.
Definition sde_method (f : pyfun) (t : T) (x : arr V) (args : dict (arr V)) : res (sdeval V) :=
  pycall f [VT t; VA x] (values_kw args).
Definition sdes_method (f : pyfun) (t : T) (xs : list (arr V)) (args : dict (arr V)) : res (sdeval V) :=
  pycall f (VT t :: map VA xs) (values_kw args).
(** an instance of the integrator class: a single equation if q is 0, else q equations *)
Definition decorated {TO : TOrd T} {Wd I : Type} (c : sclass) (f : pyfun) (set_order : list string -> list string)
           (src : string -> Wd -> T -> V -> res (Wd * arr V)) (gi : bool)
           (vshape : list nat) (paths : nat) (x0 : arr V) (args : dict (param T V)) : integ T V Wd I :=
  if Nat.eqb (c_q c) 0
  then mk_sde (c_ids c) src (c_log c) (sde_method f) gi vshape paths x0 args
  else mk_sdes (c_q c) (c_addaxis c) set_order (c_ids c) src (c_log c) (sdes_method f) gi vshape paths x0 args.
(** names of the SDE parameters of an instance, integration.py 996-1000, 1683-1691 *)
Definition sde_params (c : sclass) (f : pyfun) : list (string * option val) :=
  skipn (1 + (if Nat.eqb (c_q c) 0 then 1 else c_q c)) (pf_params f).
End Fun.
Arguments val : clear implicits.
Arguments pyfun : clear implicits.
