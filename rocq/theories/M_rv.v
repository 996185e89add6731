(** Model of the jump distributions, infrastructure.py 1640-1861.

    - scipy's frozen distributions expon(scale=a), uniform(loc=a, scale=b-a) and norm(loc=a, scale=b) are taken to be the
      scaled and shifted standard distributions: a*e, a + (b - a)*u, a + b*z, with e, u, z drawn from the generator; the
      mean and variance of expon(scale=a) are a and a**2.
    - rvs(size) raises ValueError if the parameters do not broadcast to size, as scipy does.
    - Infinity is [None]. *)
From Coq Require Import List Arith Bool ZArith.
From Verif Require Import Base BaseNum BaseArr BaseNd BaseIdx M_process M_source.
Import ListNotations.
Local Open Scope res_scope.

Section Rv.
Context {V : Type} {NV : Num V}.

(** *** one variate, and moments, for given values of the parameters *)
Definition norm_variate (a b z : V) : V := nadd a (nmul b z).
Definition norm_exp_mean (a b : V) : V := nexp (nadd a (ndiv (nmul b b) ntwo)).
Definition uniform_variate (a b u : V) : V := nadd a (nmul (nsub b a) u).
Definition uniform_exp_mean (a b : V) : V := ndiv (nsub (nexp b) (nexp a)) (nsub b a).
(** _exp_rv 1731-1754 *)
Definition exp_variate (a e : V) : V := zmul (nsign a) (nmul (nabs a) e).
Definition exp_mean (a : V) : V := zmul (nsign a) (nabs a).
Definition exp_var (a : V) : V := nmul (nabs a) (nabs a).
Definition exp_std (a : V) : V := nsqrt (exp_var a).
Definition exp_exp_mean (a : V) : option V := if nlt a none then Some (ndiv none (nsub none a)) else None.
(** _double_exp_rv 1757-1791 *)
Definition double_variate (a b pa e1 e2 u : V) : V := if nlt pa u then nsub nzero (nmul b e2) else nmul a e1.
Definition double_mean (a b pa pb : V) : V := nsub (nmul pa a) (nmul pb b).
Definition double_var (a b pa pb : V) : V :=
  nadd (nmul (nmul pa pb) (nmul (nadd a b) (nadd a b))) (nadd (nmul pa (nmul a a)) (nmul pb (nmul b b))).
Definition double_std (a b pa pb : V) : V := nsqrt (double_var a b pa pb).
Definition double_exp_mean (a b pa pb : V) : option V :=
  if nlt a none then Some (nadd (ndiv pa (nsub none a)) (ndiv pb (nadd none b))) else None.

(** *** with arrays of parameters *)
Definition iszero (x : V) : bool := negb (nlt x nzero) && negb (nlt nzero x).
Definition any (p : V -> bool) (a : arr V) : bool := existsb p (ravel a).
Definition exp_new (a : arr V) : res (arr V) := if any iszero a then Err ValueError else Ok a.
Definition exp_exp_means (a : arr V) : arr (option V) := amap exp_exp_mean a.
Record double := mkDouble { da : arr V; db : arr V; dpa : arr V; dpb : arr V }.
Definition double_new (a b pa : arr V) : res double :=
  match bshape (shp a) (shp b) with
  | None => Err ValueError
  | Some s =>
      match bshape s (shp pa) with
      | None => Err ValueError
      | Some s =>
          let a := mkArr s (bget a) in
          let b := mkArr s (bget b) in
          let pa := mkArr s (bget pa) in
          if any (fun x => negb (nlt nzero x)) a || any (fun x => negb (nlt nzero x)) b || any (nlt none) pa || any (fun x => nlt x nzero) pa
          then Err ValueError
          else Ok (mkDouble a b pa (amap (nsub none) pa))
      end
  end.
Definition double_means (d : double) : arr V :=
  mkArr (shp (da d)) (fun ix => double_mean (dat (da d) ix) (dat (db d) ix) (dat (dpa d) ix) (dat (dpb d) ix)).
Definition double_vars (d : double) : arr V :=
  mkArr (shp (da d)) (fun ix => double_var (dat (da d) ix) (dat (db d) ix) (dat (dpa d) ix) (dat (dpb d) ix)).
(** the truth value of an array is that of its entry, if it has exactly one *)
Definition truth (a : arr bool) : res bool := match ravel a with [x] => Ok x | _ => Err ValueError end.
Definition double_exp_means (d : double) : res (arr (option V)) :=
  c <- truth (amap (fun x => nlt x none) (da d)) ;;
  Ok (mkArr (shp (da d)) (fun ix =>
    if c then Some (nadd (ndiv (dat (dpa d) ix) (nsub none (dat (da d) ix))) (ndiv (dat (dpb d) ix) (nadd none (dat (db d) ix)))) else None)).

(** *** sampling *)
Context {G : Type}.
Variable std_exp : list nat -> G -> res (arr V) * G.
Variable std_uniform : list nat -> G -> res (arr V) * G.
Variable std_normal : list nat -> G -> res (arr V) * G.
Definition frozen (ps : list (arr V)) (f : list nat -> V -> V) (std : list nat -> G -> res (arr V) * G) (size : list nat) : @draws G (arr V) :=
  if forallb (fun a => can (shp a) size) ps
  then dbind (std size) (fun e => dret (mkArr size (fun ix => f ix (dat e ix))))
  else dfail ValueError.
Definition norm_rvs (a b : arr V) (size : list nat) : @draws G (arr V) := frozen [a; b] (fun ix z => norm_variate (bget a ix) (bget b ix) z) std_normal size.
Definition uniform_rvs (a b : arr V) (size : list nat) : @draws G (arr V) := frozen [a; b] (fun ix u => uniform_variate (bget a ix) (bget b ix) u) std_uniform size.
Definition exp_rvs (a : arr V) (size : list nat) : @draws G (arr V) := frozen [a] (fun ix e => exp_variate (bget a ix) e) std_exp size.
Definition double_rvs (d : double) (size : list nat) : @draws G (arr V) :=
  dbind (frozen [da d] (fun ix e => nmul (bget (da d) ix) e) std_exp size) (fun x =>
  dbind (frozen [db d] (fun ix e => nmul (bget (db d) ix) e) std_exp size) (fun y =>
  dbind (std_uniform size) (fun u =>
  (* np.where(u <= pa, x, -y) *)
  dret (mkArr size (fun ix => if nlt (bget (dpa d) ix) (dat u ix) then nsub nzero (dat y ix) else dat x ix))))).

(** *** time dependent parameters 1640-1650, mapped distributions 1799-1861 *)
(** a distribution, or a function of time that gives one *)
Inductive rv (D : Type) := Fixed (d : D) | OfTime (d : V -> res D).
(** [D]: what new objects are, as built from the values of the parameters *)
Definition is_callable (z : input V) : bool := match z with IFun _ | IProc _ => true | _ => false end.
Definition param_at (z : input V) (t : V) : res (arr V) :=
  match z with
  | IArr a => Ok a
  | IFun f => f t
  | IProc p => Ok (interp p None (ascalar t))
  | INone => Err TypeError
  end.
Fixpoint params_at (l : list (input V)) (t : V) : res (list (arr V)) :=
  match l with
  | [] => Ok []
  | z :: l' => a <- param_at z t ;; r <- params_at l' t ;; Ok (a :: r)
  end.
Definition make_variable {D} (new : list (arr V) -> res D) (params : list (input V)) : res (rv D) :=
  if existsb is_callable params then Ok (OfTime D (fun t => l <- params_at params t ;; new l))
  else l <- params_at params none ;; d <- new l ;; Ok (Fixed D d).
Definition sampler := list nat -> @draws G (arr V).
Definition rvmap (time_dependent : bool) (f : V -> arr V -> res (arr V)) (y : rv sampler) : rv sampler :=
  let mapped (t : V) (d : sampler) : sampler := fun size => dbind (d size) (fun x => dres (f t x)) in
  match y with
  | Fixed _ d => if time_dependent then OfTime _ (fun t => Ok (mapped t d)) else Fixed _ (mapped none d)
  | OfTime _ d => OfTime _ (fun t => r <- d t ;; Ok (mapped t r))
  end.
(** rv = y(t) or y, then rv.rvs((m, j)), as in cpoisson_source *)
Definition rvs_of (y : rv sampler) (t : V) (m j : nat) : @draws G (arr V) :=
  match y with
  | Fixed _ d => d [m; j]
  | OfTime _ d => dbind (dres (d t)) (fun s => s [m; j])
  end.
End Rv.
Arguments double V : clear implicits.
