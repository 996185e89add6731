(** Model of the integrator and of the SDE, SDEs classes
    (/repo/sdepy/integration.py 596-774, 781-1581, 1584-1835).

    - Numbers are an arbitrary type V with operations (no law assumed), time
      points an arbitrary type T with comparisons; [tsub t' t] is the time
      increment as a number.  Data types (dtype) are not modelled.
    - A working buffer of fixed shape is represented by its contents, a function
      from indices to numbers; the sde sees it as an array of that shape.
    - Wd is the state of the outer world: random generator, memory of sources.
    - I is the part of the [info] dictionary owned by the info_* methods. *)
From Coq Require Import String List Arith Bool ZArith.
From Verif Require Import Base BaseOrd BaseNum BaseArr M_paths.
Import ListNotations.
Local Open Scope res_scope.

(** *** Dictionaries: association lists in insertion order. *)
Definition dict (A : Type) := list (string * A).
Fixpoint lookup {A} (k : string) (d : dict A) : option A :=
  match d with
  | [] => None
  | (k', a) :: d' => if String.eqb k k' then Some a else lookup k d'
  end.
Definition keys {A} (d : dict A) : list string := map fst d.
Definition mem (k : string) (l : list string) : bool := existsb (String.eqb k) l.

(** [sorted] on strings: insertion sort. *)
Fixpoint sinsert (k : string) (l : list string) : list string :=
  match l with
  | [] => [k]
  | k' :: l' => if String.leb k k' then k :: l else k' :: sinsert k l'
  end.
Definition ssort (l : list string) : list string := fold_right sinsert [] l.

Section Model.
Context {T : Type} {TO : TOrd T} {V : Type} {NV : Num V} {Wd I : Type}.
Variable tsub : T -> T -> V.

(** contents of a buffer *)
Definition buf := list nat -> V.

(** SDE parameters, after [_variable_param_setup] (infrastructure.py 64-108):
    constant arrays or functions of time. *)
Inductive param := PConst (a : arr V) | PFun (f : T -> arr V).
(** integration.py 1218-1221: [z(t) if callable(z) else z]. *)
Definition peval (t : T) (z : param) : arr V :=
  match z with PConst a => a | PFun f => f t end.

(** What an sde method may return. *)
Inductive sdeval := RDict (d : dict (arr V)) | RSeq (l : list sdeval) | ROther.

(** *** The integrator and the methods it delegates to *)
Record integ := mkInteg {
  ig_ids : list string;                       (* keys of self.sources *)
  ig_src : string -> Wd -> T -> V -> res (Wd * arr V);    (* sources[id](t, dt) *)
  ig_A : T -> arr V -> res (dict (arr V));    (* self.A *)
  ig_w : list nat;                            (* wshape + (paths,) *)
  ig_init : T -> res buf;                     (* self.init: contents of out_x *)
  ig_log : bool;
  ig_let : T -> buf -> res buf;               (* self.let: contents of out_x *)
  ig_getinfo : bool;
  ig_info_begin : itervars T -> I -> I;
  ig_info_next : itervars T -> Wd -> buf -> I -> res I;   (* sees last_x *)
  ig_info_store : I -> I;
  ig_info_end : itervars T -> I -> res I }.

Variable ig : integ.

(** [SDE.dZ], integration.py 1227-1234: {id: sources[id](t, dt) for id in
    ordered ids} (evaluation order is that of the comprehension). *)
Fixpoint eval_sources (ids : list string) (wd : Wd) (t : T) (dt : V) : res (Wd * dict (arr V)) :=
  match ids with
  | [] => Ok (wd, [])
  | id :: ids' =>
      '(wd1, z) <- ig_src ig id wd t dt ;;
      '(wd2, d) <- eval_sources ids' wd1 t dt ;;
      Ok (wd2, (id, z) :: d)
  end.
(** [_ordered_source_ids], integration.py 1131. *)
Definition dZ (wd : Wd) (t : T) (dt : V) : res (Wd * dict (arr V)) :=
  eval_sources (ssort (ig_ids ig)) wd t dt.

(** integration.py 718: sum(A.get(id, 0)*dZ[id] for id in A.keys()), where
    Python's sum starts from 0 and adds from the left. *)
Fixpoint euler_sum (acc : arr V) (A dz : dict (arr V)) : res (arr V) :=
  match A with
  | [] => Ok acc
  | (id, a) :: A' =>
      match lookup id dz with
      | None => Err KeyError
      | Some z => p <- aop nmul a z ;; acc' <- aop nadd acc p ;; euler_sum acc' A' dz
      end
  end.

(** [integrator.euler_next], integration.py 707-723. *)
Definition euler_next (wd : Wd) (s s' : T) (x : buf) : res (Wd * buf) :=
  let ds := tsub s' s in
  A <- ig_A ig s (mkArr (ig_w ig) x) ;;
  '(wd', dz) <- dZ wd s ds ;;
  sm <- euler_sum (ascalar nzero) A dz ;;
  r <- aop nadd (mkArr (ig_w ig) x) sm ;;
  x' <- assign (ig_w ig) r ;;
  Ok (wd', x').

(** [SDE.begin], integration.py 1154-1167 (depth is 2: there is one point in the window). *)
Definition sde_begin (iv : itervars T) (s : Wd * I) (sw : list T) : res ((Wd * I) * list buf) :=
  match sw, iv_steps iv, iv_tt iv with
  | t0 :: _, s0 :: _, t1 :: _ =>
      if teqb t0 s0 && teqb s0 t1 then
        x <- ig_init ig t0 ;;
        let x := if ig_log ig then (fun ix => nlog (x ix)) else x in
        Ok ((fst s, if ig_getinfo ig then ig_info_begin ig iv (snd s) else snd s), map (fun _ => x) sw)
      else Err AssertionError
  | _, _, _ => Err IndexError
  end.

(** [paths_generator.next] (251-284) sets the next time point to the target,
    then [euler_next], then [info_next] (integration.py 734-737, 1169-1173). *)
Definition sde_next (iv : itervars T) (s : Wd * I) (sw : list T) (target : T) (xw : list buf)
  : res ((Wd * I) * T * buf) :=
  match sw, xw with
  | s0 :: _, x :: _ =>
      '(wd', x') <- euler_next (fst s) s0 target x ;;
      inf <- (if ig_getinfo ig then ig_info_next ig iv wd' x (snd s) else Ok (snd s)) ;;
      Ok ((wd', inf), target, x')
  | _, _ => Err IndexError
  end.

(** [SDE.store], integration.py 1175-1185.  The assertion [tt[i] == t] repeats the
    test made just before by [_store_if_reached]. *)
Definition sde_store (iv : itervars T) (s : Wd * I) (i : nat) (t : T) (x : buf) : res ((Wd * I) * buf) :=
  y <- ig_let ig t x ;;
  Ok ((fst s, if ig_getinfo ig then ig_info_store ig (snd s) else snd s), y).

(** [SDE.end], integration.py 1187-1191. *)
Definition sde_end (iv : itervars T) (s : Wd * I) : res (Wd * I) :=
  inf <- (if ig_getinfo ig then ig_info_end ig iv (snd s) else Ok (snd s)) ;;
  Ok (fst s, inf).

Definition sde_cb : callbacks T (Wd * I) buf buf := mkCb sde_begin sde_next sde_store sde_end.

(** [SDE.exit] (integration.py 1193-1197): elementwise exponential if [log]. *)
Definition sde_exit (xx : list (option buf)) : list (option buf) :=
  if ig_log ig then map (option_map (fun (y : buf) ix => nexp (y ix))) xx else xx.

(** Calling the instance on a timeline; the result is the state of the world and
    of [info], and the array passed to [result]. *)
Definition sde_call (i0 : Z) (pace_fn : list T -> list T) (fuel : nat) (s : Wd * I)
           (shape : list nat) (timeline : list T) : res ((Wd * I) * list (option buf)) :=
  rmap (fun st : st_t T (Wd * I) buf => (st_s st, sde_exit (st_xx st)))
       (snd (call sde_cb 2 i0 (ig_getinfo ig) pace_fn fuel s shape timeline)).
End Model.

Arguments buf : clear implicits.
Arguments param : clear implicits.
Arguments sdeval : clear implicits.
Arguments integ : clear implicits.

Section Methods.
Context {T : Type} {TO : TOrd T} {V : Type} {NV : Num V} {Wd I : Type}.

(** [SDE._check_sde_values], integration.py 1203-1214. *)
Definition check_dict (ids : list string) (v : sdeval V) : res (dict (arr V)) :=
  match v with
  | RDict d => if forallb (fun k => mem k ids) (keys d) then Ok d else Err KeyError
  | _ => Err TypeError
  end.

(** [SDE.A], integration.py 1216-1225. *)
Definition sde_A (ids : list string) (args : dict (param T V))
           (sde : T -> arr V -> dict (arr V) -> res (sdeval V)) (t : T) (x : arr V)
  : res (dict (arr V)) :=
  v <- sde t x (map (fun '(k, z) => (k, peval t z)) args) ;;
  check_dict ids v.

(** [SDE.init], integration.py 1446-1468: out_x[...] = x0. *)
Definition sde_init (w : list nat) (x0 : arr V) (t : T) : res (buf V) := assign w x0.

(** [SDE.let], integration.py 1501-1528: out_x[...] = x. *)
Definition sde_let (w xs : list nat) (t : T) (x : buf V) : res (buf V) := assign xs (mkArr w x).

(** [SDE.source_dt], integration.py 1294-1310. *)
Definition source_dt (wd : Wd) (t : T) (dt : V) : res (Wd * arr V) := Ok (wd, ascalar dt).

(** info_* methods that do nothing, integration.py 1555-1581. *)
Definition no_info_begin (iv : itervars T) (i : I) : I := i.
Definition no_info_next (iv : itervars T) (wd : Wd) (x : buf V) (i : I) : res I := Ok i.
Definition no_info_store (i : I) : I := i.
Definition no_info_end (iv : itervars T) (i : I) : res I := Ok i.

(** *** Systems of equations: SDEs *)
(** index manipulations: [X[..., k, :]] and [X[..., o:o+d, :]] *)
Definition ins2 (k : nat) (ix : list nat) : list nat := removelast ix ++ [k; last ix 0].
Definition shift2 (o : nat) (ix : list nat) : list nat :=
  let pre := removelast ix in removelast pre ++ [o + last pre 0; last ix 0].
Definition dim2 (s : list nat) : nat := last (removelast s) 0.   (* second last dimension *)
Definition pop2 (s : list nat) : list nat := removelast (removelast s) ++ [last s 0].
Definition set2 (d : nat) (s : list nat) : list nat := removelast (removelast s) ++ [d; last s 0].

(** [SDEs.unpack], integration.py 1735-1757. *)
Definition unpack1 (addaxis : bool) (d : nat) (X : arr V) (k : nat) : res (arr V) :=
  if length (shp X) <? 2 then Err IndexError else
  if addaxis then
    if k <? dim2 (shp X) then Ok (mkArr (pop2 (shp X)) (fun ix => dat X (ins2 k ix)))
    else Err IndexError
  else
    Ok (mkArr (set2 (min ((k + 1) * d) (dim2 (shp X)) - k * d) (shp X))
              (fun ix => dat X (shift2 (k * d) ix))).
Fixpoint mapr {A B} (f : A -> res B) (l : list A) : res (list B) :=
  match l with
  | [] => Ok []
  | a :: l' => b <- f a ;; bs <- mapr f l' ;; Ok (b :: bs)
  end.
Definition unpack (q : nat) (addaxis : bool) (vshape : list nat) (X : arr V) : res (list (arr V)) :=
  mapr (unpack1 addaxis (last vshape 0) X) (seq 0 q).

(** np.concatenate along axis -2: entry [j] of the axis is found by skipping
    the arrays that come before; all other dimensions must agree. *)
Fixpoint cat_get (xs : list (arr V)) (ix : list nat) (j : nat) (dflt : V) : V :=
  match xs with
  | [] => dflt
  | x :: xs' =>
      let d := dim2 (shp x) in
      if j <? d then dat x (set2 j ix) else cat_get xs' ix (j - d) dflt
  end.
Definition list_eqb := fix eqb (a b : list nat) : bool :=
  match a, b with
  | [], [] => true
  | x :: a', y :: b' => (x =? y) && eqb a' b'
  | _, _ => false
  end.
Definition concat2 (xs : list (arr V)) : res (arr V) :=
  match xs with
  | [] => Err ValueError
  | x0 :: _ =>
      if forallb (fun x => (2 <=? length (shp x)) && list_eqb (set2 0 (shp x)) (set2 0 (shp x0))) xs then
        Ok (mkArr (set2 (fold_right Nat.add 0 (map (fun x => dim2 (shp x)) xs)) (shp x0))
                  (fun ix => cat_get xs ix (dim2 ix) nzero))
      else Err ValueError
  end.
(** [x[..., np.newaxis, :]] *)
Definition newaxis (x : arr V) : arr V :=
  mkArr (ins2 1 (shp x)) (fun ix => dat x (pop2 ix)).

(** [SDEs.pack], integration.py 1759-1783. *)
Definition pack (addaxis : bool) (vshape : list nat) (paths : nat) (xs : list (arr V)) : res (arr V) :=
  ys <- mapr (fun x => y <- broadcast_to x (vshape ++ [paths]) ;;
                       Ok (if addaxis then newaxis y else y)) xs ;;
  concat2 ys.

(** [SDEs.shapes], integration.py 1785-1792: wshape. *)
Definition sdes_wshape (q : nat) (addaxis : bool) (vshape : list nat) : list nat :=
  if addaxis then vshape ++ [q] else removelast vshape ++ [last vshape 0 * q].

(** [SDEs._check_sde_values], integration.py 1695-1709. *)
Definition check_seq (q : nat) (ids : list string) (v : sdeval V) : res (list (dict (arr V))) :=
  match v with
  | RSeq l => if length l =? q then mapr (check_dict ids) l else Err ValueError
  | _ => Err TypeError
  end.

(** [SDEs.A], integration.py 1711-1731.  [set_order] stands for the order in
    which Python iterates over a set. *)
Definition union_keys (l : list (dict (arr V))) : list string :=
  nodup String.string_dec (concat (map (@keys _) l)).
Definition sdes_A (q : nat) (addaxis : bool) (vshape : list nat) (paths : nat)
           (set_order : list string -> list string)
           (ids : list string) (args : dict (param T V))
           (sde : T -> list (arr V) -> dict (arr V) -> res (sdeval V)) (t : T) (X : arr V)
  : res (dict (arr V)) :=
  xs <- unpack q addaxis vshape X ;;
  v <- sde t xs (map (fun '(k, z) => (k, peval t z)) args) ;;
  As <- check_seq q ids v ;;
  mapr (fun id => P <- pack addaxis vshape paths
                        (map (fun a => match lookup id a with Some c => c | None => ascalar nzero end) As) ;;
                  Ok (id, P))
       (set_order (union_keys As)).

(** [SDEs.init], integration.py 1794-1803: scalar x0 is given to all
    equations, otherwise x0 is iterated on its first axis. *)
Definition iter0 (x0 : arr V) : list (arr V) :=
  match shp x0 with
  | [] => []
  | n :: s => map (fun k => mkArr s (fun ix => dat x0 (k :: ix))) (seq 0 n)
  end.
Definition sdes_init (q : nat) (addaxis : bool) (vshape : list nat) (paths : nat) (w : list nat)
           (x0 : arr V) (t : T) : res (buf V) :=
  let x0s := match shp x0 with [] => repeat x0 q | _ => iter0 x0 end in
  X0 <- pack addaxis vshape paths x0s ;;
  assign w X0.

(** [SDEs.result], integration.py 1830-1835: exponentiates (again) if [log],
    then unpacks.  Here on the array of one output point. *)
Definition sdes_result (log : bool) (q : nat) (addaxis : bool) (vshape : list nat) (w : list nat)
           (y : buf V) : res (list (arr V)) :=
  unpack q addaxis vshape (mkArr w (if log then fun ix => nexp (y ix) else y)).
End Methods.
