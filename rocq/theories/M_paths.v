(** Model of [paths_generator] (/repo/sdepy/integration.py 40-584).

    Callbacks [begin], [next], [store], [end] are parameters.  They act on a
    state [S] standing for the instance attributes they may modify (random
    generator, sources with memory, info entries they own).  Simplifications:
    - [next] cannot read the stale content of the buffer xw[depth-1] that it is
      going to overwrite;
    - [begin], [next], [store] see the items of [itervars] passed to them here;
    - data types are not modelled.
    A ghost trace of events records which callbacks were invoked and with which
    time points; it has no influence on the computation. *)
From Coq Require Import List ZArith Bool.
From Verif Require Import Base BaseOrd.
Import ListNotations.

Section Paths.
Context {T : Type} {TO : TOrd T}.
Context {S X Y : Type}.

(** itervars entries made available to callbacks
    (integration.py 396-397, 434). *)
Record itervars := mkIv {
  iv_steps : list T; iv_tt : list T; iv_reverse : bool; iv_i : nat }.

(** begin: sw[0..K-2] -> xw[0..K-2]   (integration.py 220-249)
    next: sw[0..K-2], target, xw[0..K-2] -> sw[K-1], xw[K-1] (251-284)
    store: output index i, sw[k], xw[k] -> xx[i]  (286-324)
    end: (326-338) *)
Record callbacks := mkCb {
  cb_begin : itervars -> S -> list T -> res (S * list X);
  cb_next  : itervars -> S -> list T -> T -> list X -> res (S * T * X);
  cb_store : itervars -> S -> nat -> T -> X -> res (S * Y);
  cb_end   : itervars -> S -> res S }.

(** Ghost events; the boolean tells the pass (true: backwards). *)
Inductive event :=
| EvBegin (rev : bool) (sw : list T) (xw : list X)
| EvNext (rev : bool) (sw : list T) (xw : list X) (target s' : T) (x' : X)
| EvStore (rev : bool) (i : nat) (s : T) (x : X) (y : Y)
| EvEnd (rev : bool).

(** Writer (trace) and exception monad. *)
Definition W (A : Type) : Type := (list event * res A)%type.
Definition wret {A} (a : A) : W A := ([], Ok a).
Definition wraise {A} (e : exn) : W A := ([], Err e).
Definition wbind {A B} (m : W A) (f : A -> W B) : W B :=
  match m with
  | (tr, Ok a) => let '(tr', r) := f a in (tr ++ tr', r)
  | (tr, Err e) => (tr, Err e)
  end.
Definition wlift {A} (ev : A -> list event) (m : res A) : W A :=
  match m with Ok a => (ev a, Ok a) | Err e => ([], Err e) end.

Local Notation "'do' x <- m ;; k" := (wbind m (fun x => k))
  (at level 61, x pattern, m at next level, right associativity).

(** [info] entries (integration.py 550-554, 451-453). *)
Record info_t := mkInfo {
  info_t0 : T; info_tmin : T; info_tmax : T;
  computed_steps : nat; stored_steps : nat }.

(** Instance attributes and configuration. *)
Inductive steps_spec :=
| StepsNone                 (* steps is None *)
| StepsScalar (n : nat)     (* np.isscalar(steps) *)
| StepsIter (l : list T).   (* iterable *)

(** Global mutable part: callbacks' state, output array (None = NaN, i.e. not
    yet written), info. *)
Record st_t := mkSt { st_s : S; st_xx : list (option Y); st_info : option info_t }.

Definition bump (di : nat) (o : option info_t) : option info_t :=
  match o with
  | None => None   (* getinfo False *)
  | Some i => Some (mkInfo (info_t0 i) (info_tmin i) (info_tmax i)
                           (1 + computed_steps i) (di + stored_steps i))
  end.

Section Pass.
Variable cb : callbacks.
Variable K : nat.               (* depth *)
Variable rev : bool.            (* reverse *)
Variable tt : list T.           (* output timeline of this pass *)
Variable steps : list T.        (* steps_tt of this pass *)
Variable view : nat -> nat.     (* position i of the xx view -> position in xx *)

Definition iv (i : nat) : itervars := mkIv steps tt rev i.

(** integration.py 377-390.  [diff < 0] is [tt[i] < sw[k]] forwards and
    [tt[i] > sw[k]] backwards (for doubles the sign of a difference is exact). *)
Definition store_if_reached (st : st_t) (i : nat) (s : T) (x : X) : W (st_t * nat) :=
  match nth_error tt i with
  | None => wraise IndexError
  | Some ti =>
      if (if rev then tltb s ti else tltb ti s) then wraise RuntimeError
      else if teqb ti s then
        do (s', y) <- wlift (fun '(_, y) => [EvStore rev (view i) s x y])
                             (cb_store cb (iv i) (st_s st) i s x) ;;
        wret (mkSt s' (upd (st_xx st) (view i) (Some y)) (st_info st), 1)
      else wret (st, 0)
  end.

(** integration.py 403-406: sw[k] = next(st) for k in range(K-1). *)
Fixpoint take_steps (k : nat) (st : list T) : res (list T * list T) :=
  match k with
  | O => Ok ([], st)
  | Datatypes.S k' =>
      match st with
      | [] => Err StopIteration
      | s :: st' => rbind (take_steps k' st') (fun '(sw, rest) => Ok (s :: sw, rest))
      end
  end.

(** integration.py 414-417: i += self._store_if_reached(i, k). *)
Fixpoint store_initial (st : st_t) (i : nat) (sw : list T) (xw : list X) : W (st_t * nat) :=
  match sw, xw with
  | s :: sw', x :: xw' =>
      do (st', di) <- store_if_reached st i s x ;;
      store_initial st' (i + di) sw' xw'
  | _, _ => wret (st, i)
  end.

(** integration.py 441-442. *)
Definition order_ok (s0 s1 target : T) : bool :=
  if rev then tltb s1 s0 && tleb target s1 else tltb s0 s1 && tleb s1 target.

(** Main loop, integration.py 421-467.  [sw], [xw]: the last K-1 points. *)
Fixpoint main_loop (fuel : nat) (st : st_t) (i : nat) (current_s target_s : T)
         (todo sw : list T) (xw : list X) : W st_t :=
  if i <? length tt then
    match fuel with
    | O => wraise OutOfFuel
    | Datatypes.S fuel' =>
        do (target, todo') <-
           (if teqb current_s target_s then
              match todo with [] => wraise StopIteration | s :: r => wret (s, r) end
            else wret (target_s, todo)) ;;
        do (s', s1, x1) <-
           wlift (fun '(_, s1, x1) => [EvNext rev sw xw target s1 x1])
                 (cb_next cb (iv i) (st_s st) sw target xw) ;;
        if order_ok (last sw target) s1 target then
          do (st', di) <-
             store_if_reached (mkSt s' (st_xx st) (st_info st)) i s1 x1 ;;
          main_loop fuel' (mkSt (st_s st') (st_xx st') (bump di (st_info st'))) (i + di)
                    s1 target todo' (tl sw ++ [s1]) (tl xw ++ [x1])
        else wraise RuntimeError
    end
  else wret st.

(** [_generate_paths], integration.py 392-474. *)
Definition generate_paths (fuel : nat) (st : st_t) : W st_t :=
  do (sw, todo) <- wlift (fun _ => []) (take_steps (K - 1) steps) ;;
  do (s', xw) <- wlift (fun '(_, xw) => [EvBegin rev sw xw]) (cb_begin cb (iv 0) (st_s st) sw) ;;
  match sw with
  | [] => wraise IndexError
  | s0 :: _ =>
      do (st1, i) <- store_initial (mkSt s' (st_xx st) (st_info st)) 0 sw xw ;;
      do st2 <- main_loop fuel st1 i (last sw s0) (last sw s0) todo sw xw ;;
      do s2 <- wlift (fun _ => [EvEnd rev]) (cb_end cb (iv (length tt)) (st_s st2)) ;;
      wret (mkSt s2 (st_xx st2) (st_info st2))
  end.
End Pass.

(** [pace], integration.py 189-218; [linspace] stands for [np.linspace]. *)
Definition pace (linspace : T -> T -> nat -> list T) (steps : steps_spec)
           (timeline : list T) : list T :=
  match timeline with
  | [t] => [t]
  | _ => match steps with
         | StepsNone => []
         | StepsScalar n =>
             match timeline with
             | t0 :: _ => linspace t0 (last timeline t0) n
             | [] => []
             end
         | StepsIter l => l
         end
  end.

(** positions where [steps_tt == t] (np.where, integration.py 559). *)
Fixpoint where_eq (l : list T) (t : T) (j : nat) : list nat :=
  match l with
  | [] => []
  | s :: l' => if teqb s t then j :: where_eq l' t (Datatypes.S j)
               else where_eq l' t (Datatypes.S j)
  end.

(** Step points merged with the timeline, integration.py 528-531. *)
Definition merge_steps (tt pace_tt : list T) : list T :=
  match tt with
  | [] => []
  | tmin :: _ =>
      unique (filter (fun t => tleb tmin t && tleb t (last tt tmin)) pace_tt ++ tt)
  end.

(** [__call__], integration.py 476-584, up to [exit] (which is applied by the
    caller to the returned array).  [shape] is the shape of the given timeline
    and [data] its entries.  [pace_fn] is the (overridable) [pace] method. *)
Definition call (cb : callbacks) (K : nat) (i0 : Z) (getinfo : bool)
           (pace_fn : list T -> list T) (fuel : nat) (s_init : S)
           (shape : list nat) (data : list T) : W st_t :=
  if K <? 2 then wraise ValueError else
  let tt := data in
  let n := length tt in
  if negb (match shape with [m] => m =? n | _ => false end) then wraise ValueError else
  if negb (array_equal tt (unique tt)) then wraise ValueError else
  match norm_index n i0 with
  | None => wraise IndexError
  | Some p0 =>
      match tt with
      | [] => wraise IndexError
      | tmin :: _ =>
          let t0 := nth p0 tt tmin in
          let tmax := last tt tmin in
          let steps_tt := merge_steps tt (pace_fn tt) in
          if length steps_tt <? K - 1 then wraise ValueError else
          let st := mkSt s_init (repeat None n)
                      (if getinfo then Some (mkInfo t0 tmin tmax 0 0) else None) in
          match where_eq steps_tt t0 0 with
          | [j0] =>
              do st1 <- (if negb (i0 =? 0)%Z then
                           generate_paths cb K true
                             (List.rev (firstn (p0 + 1) tt))
                             (List.rev (firstn (j0 + 1) steps_tt))
                             (fun i => p0 - i) fuel st
                         else wret st) ;;
              (if ((i0 =? 0) || negb ((i0 =? -1) || (i0 =? Z.of_nat n - 1)))%Z then
                 generate_paths cb K false
                   (skipn p0 tt) (skipn j0 steps_tt) (fun i => p0 + i) fuel st1
               else wret st1)
          | _ => wraise AssertionError
          end
      end
  end.
End Paths.

Arguments callbacks : clear implicits.
Arguments event : clear implicits.
Arguments st_t : clear implicits.
Arguments info_t : clear implicits.
Arguments itervars : clear implicits.
