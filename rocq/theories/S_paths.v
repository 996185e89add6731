(** Specification vocabulary for runs of the simulation engine: ordering of
    time points and what a trace says.  Independent of the engine's helpers. *)
From Coq Require Import List ZArith Bool Sorting.Sorted.
From Verif Require Import Base BaseOrd M_paths.
Import ListNotations.

Section SP.
Context {T : Type} {TO : TOrd T}.

(** [a] comes strictly before [b], in the direction of the pass. *)
Definition before (rev : bool) (a b : T) : Prop :=
  if rev then tltb b a = true else tltb a b = true.

(** Membership up to numeric equality. *)
Definition InT (t : T) (l : list T) : Prop := exists s, In s l /\ teqb t s = true.

(** A valid timeline: non empty, made of numbers, strictly increasing. *)
Definition valid_timeline (l : list T) : Prop :=
  l <> [] /\ Forall isnum l /\ StronglySorted (before false) l.

Context {X Y : Type}.
Notation event := (event T X Y).

Definition ev_pass (e : event) : bool :=
  match e with
  | EvBegin r _ _ | EvNext r _ _ _ _ _ | EvStore r _ _ _ _ | EvEnd r => r
  end.

(** Time points touched in a pass, in order. *)
Definition visited (rev : bool) (tr : list event) : list T :=
  flat_map (fun e =>
    if Bool.eqb (ev_pass e) rev then
      match e with
      | EvBegin _ sw _ => sw
      | EvNext _ _ _ _ s' _ => [s']
      | _ => []
      end
    else []) tr.

(** Values written in a pass: position in the output, time, working value, value. *)
Definition stores (rev : bool) (tr : list event) : list (nat * T * X * Y) :=
  flat_map (fun e =>
    match e with
    | EvStore r i s x y => if Bool.eqb r rev then [(i, s, x, y)] else []
    | _ => []
    end) tr.

Definition st_idx (w : nat * T * X * Y) : nat := fst (fst (fst w)).
Definition st_time (w : nat * T * X * Y) : T := snd (fst (fst w)).
Definition st_x (w : nat * T * X * Y) : X := snd (fst w).
Definition st_val (w : nat * T * X * Y) : Y := snd w.

(** Time points and working states gone through in a pass, in order. *)
Definition states (rev : bool) (tr : list event) : list (T * X) :=
  flat_map (fun e =>
    if Bool.eqb (ev_pass e) rev then
      match e with
      | EvBegin _ sw xw => combine sw xw
      | EvNext _ _ _ _ s' x' => [(s', x')]
      | _ => []
      end
    else []) tr.

(** Number of integration steps made. *)
Definition nsteps (tr : list event) : nat :=
  length (filter (fun e => match e with EvNext _ _ _ _ _ _ => true | _ => false end) tr).

(** A step that does not move, or moves the wrong way, or goes too far. *)
Definition bad_step (rev : bool) (s target s' : T) : Prop :=
  ~ (before rev s s' /\ (before rev s' target \/ teqb s' target = true)).

(** The last value written at a position. *)
Fixpoint last_write (i : nat) (l : list (nat * T * X * Y)) (d : option Y) : option Y :=
  match l with
  | [] => d
  | w :: l' => last_write i l' (if st_idx w =? i then Some (st_val w) else d)
  end.

(** Description of a grid: [g] enumerates, in the direction of
    the pass, exactly the points of [timeline], and the points of [pace] within
    the timeline's range, not preceding [t0]. *)
Definition grid_spec (rev : bool) (timeline pace : list T) (t0 : T) (g : list T) : Prop :=
  StronglySorted (before rev) g /\
  forall t, InT t g <->
    ((InT t timeline \/
      (InT t pace /\ exists a b, InT a timeline /\ InT b timeline /\
                     tleb a t = true /\ tleb t b = true)) /\
     (teqb t0 t = true \/ before rev t0 t)).

(** Independent one-step-at-a-time recursion along a list of time points:
    [f state t t' x] gives the new state of the world and the new value. *)
Fixpoint recursion {S} (f : S -> T -> T -> X -> S * X) (s : S) (t : T) (x : X)
         (grid : list T) : S * list (T * X) :=
  match grid with
  | [] => (s, [(t, x)])
  | t' :: grid' =>
      let '(s', x') := f s t t' x in
      let '(s'', l) := recursion f s' t' x' grid' in
      (s'', (t, x) :: l)
  end.

(** The position denoted by a Python index. *)
Definition start_index (n : nat) (i0 : Z) (p0 : nat) : Prop :=
  ((0 <= i0 < Z.of_nat n /\ Z.of_nat p0 = i0) \/
   (- Z.of_nat n <= i0 < 0 /\ Z.of_nat p0 = Z.of_nat n + i0))%Z.

(** Which passes are expected to run. *)
Definition goes_back (i0 : Z) : Prop := i0 <> 0%Z.
Definition goes_forth (n : nat) (i0 : Z) : Prop :=
  i0 = 0%Z \/ (i0 <> (-1)%Z /\ i0 <> (Z.of_nat n - 1)%Z).

(** What a run must have written: positions in order within each pass; each
    value is what [store] gave for a working state at numerically the same time as the
    timeline point; no entry is left unwritten. *)
Record outputs_ok (store : T -> X -> Y -> Prop) (timeline : list T) (i0 : Z) (p0 : nat)
       (tr : list event) (xx : list (option Y)) : Prop := {
  out_back : goes_back i0 -> map st_idx (stores true tr) = List.rev (seq 0 (p0 + 1));
  out_noback : ~ goes_back i0 -> stores true tr = [] /\ visited true tr = [];
  out_forth : goes_forth (length timeline) i0 ->
      map st_idx (stores false tr) = seq p0 (length timeline - p0);
  out_noforth : ~ goes_forth (length timeline) i0 -> stores false tr = [] /\ visited false tr = [];
  out_time : forall r w, In w (stores r tr) ->
      exists ti, nth_error timeline (st_idx w) = Some ti /\ teqb ti (st_time w) = true;
  out_state : forall r w, In w (stores r tr) ->
      In (st_time w, st_x w) (states r tr) /\ store (st_time w) (st_x w) (st_val w);
  out_len : length xx = length timeline;
  out_all : forall i, i < length timeline ->
      exists r w, In w (stores r tr) /\ st_idx w = i /\ nth_error xx i = Some (Some (st_val w)) /\
                  (i < p0 -> r = true) /\ (p0 < i -> r = false)
}.
End SP.

(** Classes of user callbacks. *)
Section CB.
Context {T : Type} {TO : TOrd T} {S X Y : Type}.

(** callbacks that never raise *)
Definition total_cb (cb : callbacks T S X Y) : Prop :=
  (forall iv s sw, exists s' xw, cb_begin cb iv s sw = Ok (s', xw) /\ length xw = length sw) /\
  (forall iv s sw t xw, exists s' t' x', cb_next cb iv s sw t xw = Ok (s', t', x')) /\
  (forall iv s i t x, exists s' y, cb_store cb iv s i t x = Ok (s', y)) /\
  (forall iv s, exists s', cb_end cb iv s = Ok s').

(** callbacks that never change the proposed time point *)
Definition nonadaptive (cb : callbacks T S X Y) : Prop :=
  forall iv s sw t xw s' t' x', cb_next cb iv s sw t xw = Ok (s', t', x') -> t' = t.

(** [begin] fills the whole window *)
Definition begin_fills (cb : callbacks T S X Y) : Prop :=
  forall iv s sw s' xw, cb_begin cb iv s sw = Ok (s', xw) -> length xw = length sw.

(** [y] is a value that [store] produces from the working state [x] at [t] *)
Definition store_rel (cb : callbacks T S X Y) (t : T) (x : X) (y : Y) : Prop :=
  exists iv s s' i, cb_store cb iv s i t x = Ok (s', y).

(** one step methods that do not shorten steps, advancing by [f]; [store] writes
    [out x] and, as well as [end], does not modify the state *)
Definition simple_cb (cb : callbacks T S X Y) (f : S -> T -> T -> X -> S * X) (out : X -> Y) : Prop :=
  (forall iv s t t' x, cb_next cb iv s [t] t' [x] =
                       Ok (fst (f s t t' x), t', snd (f s t t' x))) /\
  (forall iv s i t x, cb_store cb iv s i t x = Ok (s, out x)) /\
  (forall iv s, cb_end cb iv s = Ok s).

(** enough grid points for a method of depth K in one direction *)
Definition deep_enough (K : nat) (rev : bool) (timeline pace : list T) (t0 : T) : Prop :=
  forall g, grid_spec rev timeline pace t0 g -> K - 1 <= length g.

(** input that must be refused with ValueError: depth below 2, a timeline that is
    not one dimensional or not strictly increasing, or (timeline and index being
    fine) too few points for the depth *)
Definition bad_value (K : nat) (shape : list nat) (timeline pc : list T) (i0 : Z) : Prop :=
  K < 2 \/ shape <> [length timeline] \/
  ~ (Forall isnum timeline /\ StronglySorted (before false) timeline) \/
  ((exists p0, start_index (length timeline) i0 p0) /\
   exists a tt, timeline = a :: tt /\ forall g, grid_spec false timeline pc a g -> length g < K - 1).

(** input that must be refused with IndexError: a well formed (possibly empty)
    timeline, of which [i0] is not an index *)
Definition bad_start (K : nat) (shape : list nat) (timeline : list T) (i0 : Z) : Prop :=
  2 <= K /\ shape = [length timeline] /\
  Forall isnum timeline /\ StronglySorted (before false) timeline /\
  forall p0, ~ start_index (length timeline) i0 p0.
End CB.
