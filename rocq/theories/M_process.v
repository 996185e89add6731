(** Model of the process class and of piecewise, infrastructure.py 290-1281.

    - A process has a timeline, a list of numbers, an array of values, and an interpolation kind (an attribute that
      piecewise sets on its results, and that new instances do not inherit).
    - Numbers, times included, are in [V] with operations [Num]; dtypes and their conversions are not modelled: an
      integer process would truncate interpolated values (astype, 606) and integrals (1117).
    - Copies and views are not distinguished.
    - Interpolation kinds 'linear' and 'nearest' of scipy.interpolate.interp1d are modelled. *)
From Coq Require Import String List Arith Bool ZArith.
From Verif Require Import Base BaseNum BaseArr BaseNd BaseIdx M_mc.
Import ListNotations.
Local Open Scope res_scope.

Inductive ikind := Linear | Nearest.

Section Process.
Context {V : Type} {NV : Num V}.

Record proc := mkProc { pt : list V; px : arr V; pk : ikind }.

(** *** constructor 423-456 *)
Definition process_from (t : list V) (x : arr V) : res proc :=
  if list_eq_dec Nat.eq_dec [List.length t] (firstn 1 (shp x)) then Ok (mkProc t x Linear) else Err ValueError.
Definition given {A} (x : option A) : nat := match x with Some _ => 1 | None => 0 end.
Definition process_new (t : arr V) (x v c : option (arr V)) : res proc :=
  if (1 <? List.length (shp t)) || (size (shp t) =? 0) then Err ValueError
  else
    let t := match shp t with [] => [dat t []] | n :: _ => map (fun i => dat t [i]) (seq 0 n) end in
    if negb (given x + given v + given c =? 1) then Err ValueError
    else match x, v, c with
         | Some x, _, _ => process_from t x
         | _, Some v, _ => process_from t (new_last v)
         | _, _, Some c => process_from t (mkArr (List.length t :: shp c ++ [1]) (fun ix => dat c (removelast (tl ix))))
         | _, _, _ => Err AssertionError
         end.

(** *** interpolation 544-613 *)
(** searchsorted in the middle points, side='left', clipped; values outside the timeline as in [interp_linear] *)
Definition mids (t : list V) : list V := match t with [] => [] | _ :: t' => map (fun p => nadd (ndiv (fst p) ntwo) (ndiv (snd p) ntwo)) (combine t' t) end.
Definition interp_nearest (t x : list V) (lo hi s : V) : V :=
  if nlt s (nth 0 t nzero) then lo else if nlt (last t nzero) s then hi
  else nth (Nat.min (search_left (mids t) s) (List.length t - 1)) x nzero.
(** the values of a component along the timeline *)
Definition column (p : proc) (r : list nat) : list V := map (fun i => dat (px p) (i :: r)) (seq 0 (List.length (pt p))).
Definition interp1 (k : ikind) (t x : list V) (s : V) : V :=
  match t with
  | [_] => nth 0 x nzero
  | _ => (match k with Linear => interp_linear | Nearest => interp_nearest end) t x (nth 0 x nzero) (last x nzero) s
  end.
(** f(s), for f = p.interp(kind): shape s.shape + x.shape[1:] *)
Definition interp (p : proc) (kind : option ikind) (s : arr V) : arr V :=
  let k := match kind with Some k => k | None => pk p end in
  let m := List.length (shp s) in
  mkArr (shp s ++ tl (shp (px p)))
        (fun ix => interp1 k (pt p) (column p (skipn m ix)) (dat s (firstn m ix))).
(** 615-633 *)
Definition call (p : proc) (kind : option ikind) (s : arr V) (ds : option (arr V)) : res (arr V) :=
  match ds with
  | None => Ok (interp p kind s)
  | Some ds => s1 <- aop nadd s ds ;; aop nsub (interp p kind s1) (interp p kind s)
  end.
(** 635-647 *)
Definition rebase (p : proc) (kind : option ikind) (t : arr V) : res proc :=
  let t := match shp t with [] => mkArr [1] (fun _ => dat t []) | _ => t end in
  process_new t (Some (interp p kind t)) None None.

(** *** universal functions 458-538 *)
Inductive operand := OProc (p : proc) | OArr (a : arr V).
Definition values_of (o : operand) : arr V := match o with OProc p => px p | OArr a => a end.
Variable veqb : V -> V -> bool.
Definition same_timeline (t u : list V) : bool :=
  (List.length t =? List.length u) && forallb (fun p => veqb (fst p) (snd p)) (combine t u).
Definition is_compatible (p q : proc) : bool :=
  (same_timeline (pt p) (pt q) || ((List.length (pt p) =? 1) || (List.length (pt q) =? 1))) &&
  ((List.length (tl (shp (px p))) =? List.length (tl (shp (px q)))) &&
   forallb (fun d => (fst d =? snd d) || ((fst d =? 1) || (snd d =? 1))) (combine (tl (shp (px p))) (tl (shp (px q))))).
Fixpoint procs (l : list operand) : list proc :=
  match l with [] => [] | OProc p :: l' => p :: procs l' | OArr _ :: l' => procs l' end.
Fixpoint bshape_all (l : list (list nat)) : option (list nat) :=
  match l with [] => Some [] | s :: l' => match bshape_all l' with Some r => bshape s r | None => None end end.
(** the timeline of the result, 531-535 *)
Fixpoint first_varying (t : list V) (l : list proc) : list V :=
  match l with [] => t | q :: l' => if 1 <? List.length (pt q) then pt q else first_varying t l' end.
(** f elementwise, on operands at least one of which is a process: numpy calls the methods of the first one *)
Definition ufunc (f : list V -> V) (l : list operand) : res proc :=
  match procs l with
  | [] => Err TypeError
  | self :: others =>
      match bshape_all (map (fun o => shp (values_of o)) l) with
      | None => Err ValueError
      | Some s =>
          if forallb (fun q => is_compatible q self) (self :: others)
          then process_from (first_varying (pt self) others) (mkArr s (fun ix => f (map (fun o => bget (values_of o) ix) l)))
          else Err ValueError
      end
  end.

(** *** indexing 653-703: p[mode, key] *)
Definition int_to_slice (k : idx) : idx :=
  match k with IInt i => if (i =? -1)%Z then ISlice (Some i) None None else ISlice (Some i) (Some (i + 1)%Z) None | _ => k end.
(** t[key], a tuple of at most one slice *)
Definition index_list (t : list V) (key : list idx) : res (list V) :=
  match key with
  | [ISlice a b c] => slice_list nzero t a b c
  | [] => Ok t
  | _ => Err IndexError
  end.
(** the constructor, given a timeline that may be empty *)
Definition process_slice (t : list V) (x : arr V) : res proc :=
  match t with [] => Err ValueError | _ => process_from t x end.
Definition getitem (p : proc) (mode : string) (key : list idx) : res proc :=
  if String.eqb mode "v" then x <- index_arr (px p) (full :: key ++ [full]) ;; process_slice (pt p) x
  else if String.eqb mode "t" || String.eqb mode "p" then
    if 1 <? List.length key then Err AssertionError
    else
      let key := map int_to_slice key in
      if String.eqb mode "t" then
        t <- index_list (pt p) key ;; x <- index_arr (px p) key ;; process_slice t x
      else
        x <- index_arr (px p) (match key with [] => [] | _ => repeat full (List.length (shp (px p)) - 1) ++ key end) ;; process_slice (pt p) x
  else Err IndexError.

(** *** properties and reshaping 717-799 *)
Definition paths (p : proc) : nat := last (shp (px p)) 0.
Definition vshape (p : proc) : list nat := tl (removelast (shp (px p))).
Definition shapeas (p : proc) (v : list nat) : res proc :=
  let s := shp (px p) in
  let d := List.length s in
  let h := List.length v in
  (* h > k, where k = d - 2 *)
  if d <? h + 2 then
    x <- reshape (px p) (firstn 1 s ++ repeat 1 (h + 2 - d) ++ tl s) ;; process_slice (pt p) x
  else if (h + 2 <? d) && negb (forallb (Nat.eqb 1) (firstn (d - (h + 2)) (tl s))) then Err ValueError
  else x <- reshape (px p) (firstn 1 s ++ skipn (d - (h + 2)) (tl s)) ;; process_slice (pt p) x.
(** *** copies 804-828: pcopy, xcopy and tcopy have the same timeline and values *)
Definition pcopy (p : proc) : res proc := process_slice (pt p) (px p).

(** *** summaries 833-1027 *)
Definition nvar (ddof : nat) (l : list V) : V :=
  let m := nmean l in ndiv (nsum (map (fun x => nmul (nsub x m) (nsub x m)) l)) (nofnat (List.length l - ddof)).
Definition nstd (ddof : nat) (l : list V) : V := nsqrt (nvar ddof l).
(** min, max: of a non empty list *)
Definition lmin (l : list V) : V := match l with [] => nzero | x :: l' => nminl l' x end.
Definition lmax (l : list V) : V := match l with [] => nzero | x :: l' => nmaxl l' x end.
(** across paths: [strict] for min, max, that raise on empty axes.  f is applied to the entries along the axis *)
Definition psummary (strict : bool) (f : list V -> V) (p : proc) : res proc :=
  let s := shp (px p) in
  let n := last s 0 in
  if strict && ((n =? 0) && negb (size (removelast s) =? 0)) then Err ValueError
  else process_from (pt p) (mkArr (removelast s ++ [1]) (fun ix => f (map (fun j => dat (px p) (removelast ix ++ [j])) (seq 0 n)))).
(** across values *)
Definition vsummary (strict : bool) (f : list V -> V) (p : proc) : res proc :=
  let v := vshape p in
  if strict && ((size v =? 0) && negb (paths p =? 0)) then Err ValueError
  else process_from (pt p) (mkArr (firstn 1 (shp (px p)) ++ skipn (S (List.length v)) (shp (px p)))
         (fun ix => f (map (fun jx => dat (px p) (firstn 1 ix ++ jx ++ tl ix)) (ndindex v)))).
(** along the timeline *)
Definition tsummary (f : list V -> V) (p : proc) : res proc :=
  process_from (firstn 1 (pt p)) (mkArr (1 :: tl (shp (px p))) (fun ix => f (column p (tl ix)))).
Definition tcumsum (p : proc) : res proc :=
  process_from (pt p) (mkArr (shp (px p)) (fun ix => nth (hd 0 ix) (cumsum nzero (column p (tl ix))) nzero)).

(** *** differences and sums along the timeline 1032-1120 *)
(** [w]: the function applied to time increments, None if dt_exp is 0 *)
Definition tdiff (w : option (V -> V)) (fwd : bool) (p : proc) : res proc :=
  let n := List.length (pt p) in
  process_slice (if fwd then removelast (pt p) else tl (pt p))
    (mkArr (n - 1 :: tl (shp (px p)))
       (fun ix => let i := hd 0 ix in
                  let d := nsub (dat (px p) (S i :: tl ix)) (dat (px p) (i :: tl ix)) in
                  match w with None => d | Some w => ndiv d (w (nth i (ndiffl (pt p)) nzero)) end)).
Definition tder (p : proc) : res proc := tdiff (Some (fun dt => dt)) true p.
Definition tint (p : proc) : res proc :=
  process_from (pt p) (mkArr (shp (px p))
    (fun ix => nth (hd 0 ix)
       (cumsum nzero (nzero :: map (fun q => nmul (fst q) (snd q)) (combine (removelast (column p (tl ix))) (ndiffl (pt p))))) nzero)).

(** *** distributions 1125-1209 *)
(** values at the given times, or along the timeline; and the number of time axes *)
Definition at_times (p : proc) (t : option (arr V)) : nat * list nat * arr V :=
  match t with
  | None => (1, [List.length (pt p)], px p)
  | Some t => (List.length (shp t), shp t, interp p None t)
  end.
(** arguments (t, x): the second one may be omitted *)
Definition dist_args {A} (t x : option (arr A)) : res (option (arr A) * arr A) :=
  match t, x with
  | None, None => Err TypeError
  | Some t, None => Ok (None, t)
  | t, Some x => Ok (t, x)
  end.
Definition mean_axis {B C} (y : arr B) (f : list B -> C) : arr C :=
  mkArr (removelast (shp y)) (fun ix => f (map (fun j => dat y (ix ++ [j])) (seq 0 (last (shp y) 0)))).
Definition on_values {B} (op : V -> V -> B) (p : proc) (t : option (arr V)) (u : arr V) : res (arr B) :=
  let '(m, ts, y) := at_times p t in
  uu <- reshape u (repeat 1 m ++ shp u ++ repeat 1 (List.length (shp y) - m)) ;;
  yy <- reshape y (ts ++ repeat 1 (List.length (shp u)) ++ skipn m (shp y)) ;;
  aop op yy uu.
Definition cdf (p : proc) (t x : option (arr V)) : res (arr V) :=
  ' (t, x) <- dist_args t x ;;
  z <- on_values (fun y x => negb (nlt x y)) p t x ;;
  Ok (mean_axis z (fun l => ndiv (nofnat (List.length (filter (fun b => b) l))) (nofnat (paths p)))).
(** [cexp x]: exp(1j*x); [cmean]: mean of complex numbers *)
Definition chf {C : Type} (cexp : V -> C) (cmean : list C -> C) (p : proc) (t u : option (arr V)) : res (arr C) :=
  ' (t, u) <- dist_args t u ;;
  z <- on_values (fun y u => cexp (nmul u y)) p t u ;;
  Ok (mean_axis z cmean).

(** *** piecewise 1216-1281 *)
(** [mode]: entries of s and y at position k *)
Definition doubled (t : list V) : list V := flat_map (fun x => [x; x]) t.
Definition piecewise (t : arr V) (x v : option (arr V)) (mode : string) : res proc :=
  p <- process_new t x v None ;;
  let n := List.length (pt p) in
  let y (pos : nat -> nat) := mkArr (2*n :: tl (shp (px p))) (fun ix => dat (px p) (pos (hd 0 ix) :: tl ix)) in
  if String.eqb mode "mid" then q <- process_from (pt p) (px p) ;; Ok (mkProc (pt q) (px q) Nearest)
  else if String.eqb mode "forward" then
    q <- process_from (doubled (pt p)) (y (fun k => if k =? 0 then 0 else (k - 1)/2)) ;; Ok (mkProc (pt q) (px q) Nearest)
  else if String.eqb mode "backward" then
    q <- process_from (doubled (pt p)) (y (fun k => if k =? 2*n - 1 then n - 1 else (k + 1)/2)) ;; Ok (mkProc (pt q) (px q) Nearest)
  else Err ValueError.
End Process.
Arguments proc V : clear implicits.
Arguments operand V : clear implicits.
