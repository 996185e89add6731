(** Model of stochasticity sources without memory, infrastructure.py 54-150, 153-243, 1291-1633, 1881-2150.

    - The random number generator is an abstract state [G], with functions that give an array of variates and the new
      state: normal(0, 1, size), multivariate_normal(0, cov, size), poisson(lam, size), and the rvs method of the
      distribution y, at a given time.  What they promise (shapes, non negative counts) is stated by the theorems.
    - Numbers, times included, are in [V]; counts are integers.  dtypes are not modelled.
    - A callable parameter is a function from times to arrays, that may raise. *)
From Coq Require Import List Arith Bool ZArith.
From Verif Require Import Base BaseNum BaseArr BaseNd BaseIdx M_process.
Import ListNotations.
Local Open Scope res_scope.

Section Params.
Context {V : Type} {NV : Num V}.

Definition nabs (x : V) : V := nmax x (nsub nzero x).
Definition nsign (x : V) : Z := if nlt nzero x then 1%Z else if nlt x nzero then (-1)%Z else 0%Z.

(** *** parameters 64-125 *)
(** as given *)
Inductive input := INone | IArr (a : arr V) | IFun (f : V -> res (arr V)) | IProc (p : proc V).
(** as set up: callables come with the shape found at t = 1, if any *)
Inductive param := PNone | PArr (a : arr V) | PFun (f : V -> res (arr V)) (shape : option (list nat)) | PProc (p : proc V).
Definition variable_param_setup (z : input) : param :=
  match z with
  | INone => PNone
  | IArr a => PArr a
  | IFun f => PFun f (match f none with Ok x => Some (shp x) | Err _ => None end)
  | IProc p => PProc p
  end.
Definition get_param_shape (z : param) : option (list nat) :=
  match z with
  | PNone => None
  | PArr a => Some (shp a)
  | PFun _ s => s
  | PProc p => Some (vshape p ++ [paths p])
  end.
(** callable(z), and the value it gives *)
Definition param_call (z : param) : option (V -> res (arr V)) :=
  match z with
  | PFun f _ => Some f
  | PProc p => Some (fun t => Ok (interp p None (ascalar t)))
  | _ => None
  end.

(** *** correlations 128-206 *)
(** np.concatenate((a, b), axis=k), arrays with k < ndim *)
Definition concat {B} (k : nat) (a b : arr B) : res (arr B) :=
  let na := nth k (shp a) 0 in
  if list_eq_dec Nat.eq_dec (upd (shp a) k (nth k (shp b) 0)) (shp b)
  then Ok (mkArr (upd (shp a) k (na + nth k (shp b) 0))
                 (fun ix => if nth k ix 0 <? na then dat a ix else dat b (upd ix k (nth k ix 0 - na))))
  else Err ValueError.
Definition mat (m n : nat) (f : nat -> nat -> V) : arr V := mkArr [m; n] (fun ix => f (nth 0 ix 0) (nth 1 ix 0)).
Definition eye (n : nat) : arr V := mat n n (fun i j => if i =? j then none else nzero).
Definition diag (n : nat) (f : nat -> V) : arr V := mat n n (fun i j => if i =? j then f i else nzero).
Definition shape_in (s : list nat) (l : list (list nat)) : bool := existsb (fun x => if list_eq_dec Nat.eq_dec s x then true else false) l.
Definition const_rho_to_corr (rho : arr V) : res (arr V) :=
  let n := size (shp rho) in
  if negb (shape_in (shp rho) [[]; [n]; [n; 1]]) then Err ValueError
  else if n =? 1 then
    rho <- reshape rho [] ;;
    let r := dat rho [] in
    Ok (mat 2 2 (fun i j => if i =? j then none else r))
  else
    rho <- reshape rho [n] ;;
    let R := diag n (fun i => dat rho [i]) in
    a <- concat 0 (eye n) R ;;
    b <- concat 0 R (eye n) ;;
    concat 1 a b.
(** len(s) not in (2, 3) or s[0] != s[1] or (len(s) == 3 and s[2] != 1), negated *)
Definition square_shape (s : list nat) : bool :=
  match s with [a; b] => a =? b | [a; b; c] => (a =? b) && (c =? 1) | _ => false end.
Definition vector_shape (s : list nat) : bool :=
  match s with [] => true | [_] => true | [_; b] => b =? 1 | _ => false end.
Definition checked (s : option (list nat)) (ok : list nat -> bool) : bool := match s with None => true | Some s => ok s end.
Definition get_corr_matrix (corr rho : input) : res param :=
  match corr, rho with
  | INone, INone => Ok PNone
  | INone, _ =>
      let rho := variable_param_setup rho in
      let s := get_param_shape rho in
      if negb (checked s vector_shape) then Err ValueError
      else match param_call rho, rho with
           | Some f, _ =>
               Ok (PFun (fun t => x <- f t ;; const_rho_to_corr x)
                        (match s with None => None | Some [] => Some [2; 2] | Some (d :: _) => Some [2*d; 2*d] end))
           | None, PArr a => c <- const_rho_to_corr a ;; Ok (PArr c)
           | None, _ => Ok PNone
           end
  | _, _ =>
      let corr := variable_param_setup corr in
      if checked (get_param_shape corr) square_shape then Ok corr else Err ValueError
  end.

(** *** the source protocol 209-243 *)
(** [attrs]: paths and vshape of an object that has them and is callable *)
Definition check_source (attrs : option (nat * list nat)) (paths : nat) (vshape : list nat) : res unit :=
  match attrs with
  | Some (n, v) => if (n =? paths) && can v vshape then Ok tt else Err ValueError
  | None => Err ValueError
  end.
End Params.
Arguments input V : clear implicits.
Arguments param V : clear implicits.

Section Source.
Context {V : Type} {NV : Num V} {G : Type}.
(** a computation that uses the generator *)
Definition draws (A : Type) : Type := G -> res A * G.
Definition dret {A} (a : A) : draws A := fun g => (Ok a, g).
Definition dfail {A} (e : exn) : draws A := fun g => (Err e, g).
Definition dbind {A B} (m : draws A) (f : A -> draws B) : draws B :=
  fun g => match m g with (Ok a, g') => f a g' | (Err e, g') => (Err e, g') end.
Definition dres {A} (m : res A) : draws A := fun g => (m, g).
(** for i in l: results, in order *)
Fixpoint each {I B} (f : I -> draws B) (l : list I) : draws (list (I * B)) :=
  match l with
  | [] => dret []
  | i :: l' => dbind (f i) (fun b => dbind (each f l') (fun r => dret ((i, b) :: r)))
  end.
(** an array filled by assigning to x[i] for i in np.ndindex(w): shape w + s *)
Definition assembled {B} (d : B) (w s : list nat) (l : list (list nat * arr B)) : arr B :=
  let m := length w in
  mkArr (w ++ s) (fun ix => match find (fun p => if list_eq_dec Nat.eq_dec (fst p) (firstn m ix) then true else false) l with
                            | Some (_, a) => bget a (skipn m ix)
                            | None => d
                            end).
(** np.broadcast_arrays(t, dt) *)
Definition broadcast2 (t dt : arr V) : res (arr V * arr V) :=
  match bshape (shp t) (shp dt) with
  | Some w => Ok (mkArr w (bget t), mkArr w (bget dt))
  | None => Err ValueError
  end.
(** t[i] + dt[i]/2 *)
Definition mid_time (t dt : arr V) (i : list nat) : V := nadd (dat t i) (ndiv (dat dt i) ntwo).

(** *** Wiener source 1480-1560 *)
Definition wiener_new (vshape : list nat) (corr rho : input V) : res (param V) :=
  c <- get_corr_matrix corr rho ;;
  match c, vshape with
  | PNone, _ => Ok c
  | _, [] => Err ValueError
  | _, _ =>
      let M := last vshape 0 in
      match get_param_shape c with
      | None => Ok c
      | Some s => if (if list_eq_dec Nat.eq_dec (firstn 2 s) [M; M] then true else false) && negb ((length s =? 3) && negb (last s 0 =? 1))
                  then Ok c else Err ValueError
      end
  end.
(** cov, or cov[..., 0] *)
Definition drop_paths (c : arr V) : res (arr V) :=
  match shp c with
  | [a; b; n] => if n =? 1 then Ok (mkArr [a; b] (fun ix => dat c (ix ++ [0]))) else Err ValueError
  | _ => Ok c
  end.
Definition swap_last2 {B} (a : arr B) : arr B :=
  let sw {A} (l : list A) := match rev l with x :: y :: r => rev (y :: x :: r) | _ => l end in
  mkArr (sw (shp a)) (fun ix => dat a (sw ix)).
Variable normal : list nat -> draws (arr V).
Variable mvnormal : arr V -> list nat -> draws (arr V).
(** mean and cov are checked against each other *)
Definition multivariate_normal (M : nat) (cov : arr V) (s : list nat) : draws (arr V) :=
  if list_eq_dec Nat.eq_dec (shp cov) [M; M] then mvnormal cov s else dfail ValueError.
Definition wiener_call (paths : nat) (vshape : list nat) (corr : param V) (t dt : arr V) : draws (arr V) :=
  dbind (dres (broadcast2 t dt)) (fun '(t, dt) =>
  let w := shp dt in
  let M := last vshape 0 in
  let v := removelast vshape in
  dbind
    (match corr with
     | PNone => normal (w ++ vshape ++ [paths])
     | _ =>
         dbind
           (match param_call corr, corr with
            | None, PArr cov => dbind (dres (drop_paths cov)) (fun cov => multivariate_normal M cov (w ++ v ++ [paths]))
            | Some f, _ =>
                dbind (each (fun i =>
                         dbind (dres (f (mid_time t dt i))) (fun cov =>
                         dbind (dres (drop_paths cov)) (fun cov =>
                         dbind (multivariate_normal M cov (v ++ [paths])) (fun z =>
                         dbind (dres (broadcast_to z (v ++ [paths; M]))) dret)))) (ndindex w))
                      (fun l => dret (assembled nzero w (v ++ [paths; M]) l))
            | None, _ => dfail TypeError
            end)
           (fun dz => let dz := swap_last2 dz in
                      if list_eq_dec Nat.eq_dec (shp dz) (w ++ vshape ++ [paths]) then dret dz else dfail RuntimeError)
     end)
    (fun dz => dbind (dres (reshape dt (w ++ repeat 1 (length vshape) ++ [1]))) (fun dt =>
               dres (aop nmul dz (amap (fun x => nsqrt (nabs x)) dt))))).

(** *** Poisson source 1599-1633 *)
Definition poisson_new (paths : nat) (vshape : list nat) (lam : input V) : res (param V) :=
  let lam := variable_param_setup lam in
  if checked (get_param_shape lam) (fun s => can s (vshape ++ [paths])) then Ok lam else Err ValueError.
Variable poisson : arr V -> list nat -> draws (arr Z).
Definition poisson_call (paths : nat) (vshape : list nat) (lam : param V) (t dt : arr V) : draws (arr Z) :=
  dbind (dres (broadcast2 t dt)) (fun '(t, dt) =>
  let w := shp dt in
  let s := vshape ++ [paths] in
  dbind (each (fun i =>
           dbind (match param_call lam, lam with
                  | Some f, _ => dres (f (mid_time t dt i))
                  | None, PArr a => dret a
                  | None, _ => dfail TypeError
                  end) (fun L =>
           dbind (poisson (amap (fun l => nmul (nabs (dat dt i)) l) L) s) (fun n =>
           dres (broadcast_to (amap (fun k => (nsign (dat dt i) * k)%Z) n) s)))) (ndindex w))
        (fun l => dret (assembled 0%Z w s l))).

(** *** compound Poisson source 1978-2040 *)
(** nmax = max of the entries; empty arrays raise *)
Definition zmax (l : list Z) : res Z := match l with [] => Err ValueError | x :: l' => Ok (fold_left Z.max l' x) end.
(** the counts *)
Variable dn : arr V -> arr V -> draws (arr Z).
(** rv.rvs(size=(n, j)), with rv = y(t) or y *)
Variable rvs : V -> nat -> nat -> draws (arr V).
Definition zmul (s : Z) (x : V) : V := if (s =? 1)%Z then x else if (s =? -1)%Z then nsub nzero x else nmul nzero x.
(** a[mask] = v, where a has shape s, mask has shape m and k entries, and v has shape (k,): m must be the first
    dimensions of s, and v is broadcast along the others *)
Definition masked (s m : list nat) (k : nat) : res unit :=
  if list_eq_dec Nat.eq_dec m (firstn (length m) s)
  then if can [k] (k :: skipn (length m) s) then Ok tt else Err ValueError
  else Err IndexError.
(** entries (in row major order) with j jumps, and the sample drawn for them, to be assigned to an array of shape s *)
Definition jump_sample (s : list nat) (t : V) (n : arr Z) (j : nat) : draws (option (list (list nat) * arr V)) :=
  let e := filter (fun ix => (dat n ix =? Z.of_nat j)%Z) (ndindex (shp n)) in
  match e with
  | [] => dret None
  | _ => dbind (rvs t (length e) j) (fun y =>
         dbind (dres (masked s (shp n) (length e))) (fun _ => dret (Some (e, y))))
  end.
Definition the_samples {I B} (l : list (I * option B)) : list B := flat_map (fun p => match snd p with Some b => [b] | None => [] end) l.
(** dz[i][index] = sign*y_sample.sum(axis=-1), for each sample, starting from zeros; index has m dimensions *)
Definition position (ix : list nat) (e : list (list nat)) : option nat :=
  (fix go k l := match l with [] => None | x :: l' => if list_eq_dec Nat.eq_dec x ix then Some k else go (S k) l' end) 0 e.
Fixpoint jumps_at (m : nat) (sign : Z) (l : list (list (list nat) * arr V)) (ix : list nat) : V :=
  match l with
  | [] => nzero
  | (e, y) :: l' => match position (firstn m ix) e with
                    | Some k => bget (mkArr [length e] (fun i => zmul sign (nsum (row y i)))) (k :: skipn m ix)
                    | None => jumps_at m sign l' ix
                    end
  end.
Definition cpoisson_call (paths : nat) (vshape : list nat) (t dt : arr V) : draws (arr V * arr Z * list (arr V)) :=
  dbind (dres (broadcast2 t dt)) (fun '(t, dt) =>
  let w := shp dt in
  let s := vshape ++ [paths] in
  dbind (dn t dt) (fun n =>
  dbind (each (fun i =>
           let sign := nsign (dat dt i) in
           dbind (dres (sub_arr n i)) (fun ni =>
           let pos := amap (fun k => (sign * k)%Z) ni in
           dbind (dres (zmax (ravel pos))) (fun nmax =>
           dbind (each (fun j => jump_sample s (mid_time t dt i) pos j) (seq 1 (Z.to_nat nmax))) (fun l =>
           dret (mkArr s (jumps_at (length (shp ni)) sign (the_samples l)), map snd (the_samples l)))))) (ndindex w))
        (fun l => dret (assembled nzero w s (map (fun p => (fst p, fst (snd p))) l), n, flat_map (fun p => snd (snd p)) l)))).

(** *** antithetic sources 2047-2089 *)
(** the number of paths of the underlying source *)
Definition antithetics_new (paths : nat) : res nat := if Nat.odd paths then Err ValueError else Ok (paths/2).
Definition antithetics_call {B} (transform : B -> B) (base : draws (arr B)) : draws (arr B) :=
  dbind base (fun dz => dres (concat (length (shp dz) - 1) dz (amap transform dz))).
End Source.
