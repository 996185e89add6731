(** Specifications for processes. *)
From Coq Require Import List Arith Bool Lia ZArith Reals.
From Verif Require Import Base BaseNum BaseArr BaseNd BaseIdx M_process S_mc.
Import ListNotations.

(** a timeline is not empty, and is the first axis of the values *)
Definition wf {V} (p : proc V) : Prop := pt p <> [] /\ exists r, shp (px p) = length (pt p) :: r.
(** values and paths *)
Definition comp {V} (p : proc V) : list nat := tl (shp (px p)).
(** shapes that agree up to axes of length one *)
Definition agree (r s : list nat) : Prop := Forall2 (fun a b => a = b \/ a = 1 \/ b = 1) r s.

(** positions selected by start:stop:step in a sequence of n items, as a filter *)
Definition from_end (n : nat) (i : Z) : Z := if (i <? 0)%Z then (i + Z.of_nat n)%Z else i.
Definition sliced (n : nat) (start stop step : option Z) : list nat :=
  let k := match step with None => 1%Z | Some k => k end in
  if (0 <? k)%Z then
    let a := match start with None => 0%Z | Some i => Z.max 0 (from_end n i) end in
    let b := match stop with None => Z.of_nat n | Some i => from_end n i end in
    filter (fun j => (a <=? Z.of_nat j)%Z && (Z.of_nat j <? b)%Z && ((Z.of_nat j - a) mod k =? 0)%Z) (seq 0 n)
  else
    let a := match start with None => (Z.of_nat n - 1)%Z | Some i => Z.min (Z.of_nat n - 1) (from_end n i) end in
    let b := match stop with None => (-1)%Z | Some i => from_end n i end in
    filter (fun j => (b <? Z.of_nat j)%Z && (Z.of_nat j <=? a)%Z && ((a - Z.of_nat j) mod (- k) =? 0)%Z) (rev (seq 0 n)).
(** positions selected by an integer or slice that keeps the axis *)
Definition selected (n : nat) (k : idx) : list nat :=
  match k with
  | IInt i => if ((0 <=? from_end n i)%Z && (from_end n i <? Z.of_nat n)%Z)%bool then [Z.to_nat (from_end n i)] else []
  | ISlice a b c => sliced n a b c
  end.

(** interpolation: the value at s of the function joining the points (t[i], x[i]), constant outside *)
Definition joins (t x : list R) (s y : R) : Prop :=
  (s <= nth 0 t 0 -> y = nth 0 x 0)%R /\ (last t 0 <= s -> y = last x 0)%R /\
  forall i, S i < length t -> (nth i t 0 <= s <= nth (S i) t 0)%R ->
    (y = nth i x 0 + (nth (S i) x 0 - nth i x 0)*((s - nth i t 0)/(nth (S i) t 0 - nth i t 0)))%R.

(** the times an array stands for *)
Definition times {V} (t : arr V) : list V := match shp t with [] => [dat t []] | n :: _ => map (fun i => dat t [i]) (seq 0 n) end.

(** entries read by broadcasting, for shapes with the same number of axes, and the resulting shape *)
Definition pick (s ix : list nat) : list nat := map (fun p => if fst p =? 1 then 0 else snd p) (combine s ix).
Definition wide (r s : list nat) : list nat := map (fun p => if fst p =? 1 then snd p else fst p) (combine r s).

(** [picks s key r ix jx]: indexing by key an array of shape s gives shape r, and its entry ix is entry jx *)
Inductive picks : list nat -> list idx -> list nat -> list nat -> list nat -> Prop :=
| picks_nil s ix : picks s [] s ix ix
| picks_int d s i key r ix jx : (0 <= from_end d i < Z.of_nat d)%Z -> picks s key r ix jx ->
    picks (d :: s) (IInt i :: key) r ix (Z.to_nat (from_end d i) :: jx)
| picks_slice d s a b c key r j ix jx : c <> Some 0%Z -> picks s key r ix jx ->
    picks (d :: s) (ISlice a b c :: key) (length (sliced d a b c) :: r) (j :: ix) (nth j (sliced d a b c) 0 :: jx).
(** keys that are not too many and not out of range *)
Fixpoint key_ok (s : list nat) (key : list idx) : Prop :=
  match key, s with
  | [], _ => True
  | _ :: _, [] => False
  | IInt i :: key', d :: s' => (0 <= from_end d i < Z.of_nat d)%Z /\ key_ok s' key'
  | ISlice _ _ c :: key', _ :: s' => c <> Some 0%Z /\ key_ok s' key'
  end.

(** one-dimensional array *)
Definition vec {V} `{Num V} (l : list V) : arr V := mkArr [length l] (fun ix => nth (hd 0 ix) l nzero).
(** values of a component along the timeline *)
Definition along {V} (p : proc V) (r : list nat) : list V := map (fun i => dat (px p) (i :: r)) (seq 0 (length (pt p))).
(** the value of a component at a time *)
Definition value {V} `{Num V} (p : proc V) (kind : option ikind) (s : V) (r : list nat) : V := dat (interp p kind (ascalar s)) r.
(** the values across paths of component v, at an entry ix of the given times, or at a point of the timeline *)
Definition sample {V} `{Num V} (p : proc V) (t : option (arr V)) (ix v : list nat) : list V :=
  map (fun j => match t with None => dat (px p) (ix ++ v ++ [j]) | Some t => value p None (dat t ix) (v ++ [j]) end) (seq 0 (paths p)).
Definition sample_times {V} (p : proc V) (t : option (arr V)) : list nat := match t with None => [length (pt p)] | Some t => shp t end.
(** fraction of a list not above x *)
Definition fraction (l : list R) (x : R) : R := (INR (length (filter (fun y => if Rle_dec y x then true else false) l)) / INR (length l))%R.
