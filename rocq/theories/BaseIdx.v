(** Basic indexing of arrays by integers and slices, and reshaping. *)
From Coq Require Import List Arith Bool Lia ZArith.
From Verif Require Import Base BaseArr BaseNd.
Import ListNotations.
Local Open Scope res_scope.

(** an integer, or a slice start:stop:step *)
Inductive idx := IInt (i : Z) | ISlice (start stop step : option Z).
Definition full : idx := ISlice None None None.

(** positions selected by a slice of a sequence of length n: Python's slice.indices *)
Definition slice_clip (n lo hi i : Z) : Z := if (i <? 0)%Z then Z.max (i + n) lo else Z.min i hi.
Definition slice_positions (n : nat) (start stop step : option Z) : res (list nat) :=
  let n := Z.of_nat n in
  let k := match step with None => 1%Z | Some k => k end in
  if (k =? 0)%Z then Err ValueError
  else
    let lo := if (0 <? k)%Z then 0%Z else (-1)%Z in
    let hi := if (0 <? k)%Z then n else (n - 1)%Z in
    let a := match start with None => if (0 <? k)%Z then lo else hi | Some i => slice_clip n lo hi i end in
    let b := match stop with None => if (0 <? k)%Z then hi else lo | Some i => slice_clip n lo hi i end in
    let m := if (0 <? k)%Z then if (a <? b)%Z then ((b - a - 1)/k + 1)%Z else 0%Z
             else if (b <? a)%Z then ((a - b - 1)/(- k) + 1)%Z else 0%Z in
    Ok (map (fun j => Z.to_nat (a + Z.of_nat j * k)) (seq 0 (Z.to_nat m))).

(** x[key]: the shape of the result, and the index of the entry of x each of its entries is *)
Fixpoint index_shape (s : list nat) (key : list idx) : res (list nat * (list nat -> list nat)) :=
  match key, s with
  | [], _ => Ok (s, fun ix => ix)
  | _ :: _, [] => Err IndexError
  | IInt i :: key', d :: s' =>
      match norm_index d i with
      | None => Err IndexError
      | Some k => ' (r, f) <- index_shape s' key' ;; Ok (r, fun ix => k :: f ix)
      end
  | ISlice a b c :: key', d :: s' =>
      l <- slice_positions d a b c ;;
      ' (r, f) <- index_shape s' key' ;;
      Ok (length l :: r, fun ix => match ix with [] => [] | j :: ix' => nth j l 0 :: f ix' end)
  end.
Definition index_arr {V} (x : arr V) (key : list idx) : res (arr V) :=
  ' (r, f) <- index_shape (shp x) key ;; Ok (mkArr r (fun ix => dat x (f ix))).
(** sequences: l[start:stop:step] *)
Definition slice_list {A} (d : A) (l : list A) (a b c : option Z) : res (list A) :=
  k <- slice_positions (length l) a b c ;; Ok (map (fun j => nth j l d) k).

(** *** reshape, in row-major order *)
Definition size (s : list nat) : nat := fold_right Nat.mul 1 s.
(** position of an entry *)
Definition flat (s ix : list nat) : nat := fold_left (fun acc p => acc * fst p + snd p) (combine s ix) 0.
(** the index at a position *)
Fixpoint unflat (s : list nat) (k : nat) : list nat :=
  match s with [] => [] | _ :: s' => k / size s' :: unflat s' (k mod size s') end.
Definition reshape {V} (x : arr V) (s : list nat) : res (arr V) :=
  if size s =? size (shp x) then Ok (mkArr s (fun ix => dat x (unflat (shp x) (flat s ix)))) else Err ValueError.
