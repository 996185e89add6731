(** Specifications for the montecarlo class: statistics of lists of real numbers, values of a component of a sample. *)
From Coq Require Import String List Arith Bool ZArith Reals.
From Verif Require Import Base BaseArr BaseNd M_mc.
Import ListNotations.
Local Open Scope R_scope.

Definition total (l : list R) : R := fold_right Rplus 0 l.
Definition average (l : list R) : R := total l / INR (length l).
Definition central (k : nat) (l : list R) : R := average (map (fun x => (x - average l)^k) l).

(** a sample is an array with an axis, that enumerates data points: for a sample of shape s and axis k, data points
    have shape s without its k-th element.  A number is a sample of one data point. *)
Definition axis_of {V} (x : arr V * Z) : option nat :=
  match shp (fst x) with [] => norm_index 1 (snd x) | s => norm_index (length s) (snd x) end.
Definition batch {V} (v : list nat) (n : nat) (x : arr V * Z) : Prop :=
  exists k, axis_of x = Some k /\
    match shp (fst x) with [] => v = [] /\ n = 1%nat | s => del_at k s = v /\ nth k s 0%nat = n end.
(** the values of the component ix *)
Definition values {V} (x : arr V * Z) (ix : list nat) : list V :=
  match shp (fst x), axis_of x with
  | [], Some _ => [dat (fst x) []]
  | s, Some k => map (fun j => dat (fst x) (ins_at k j ix)) (seq 0 (nth k s 0%nat))
  | _, None => []
  end.
Definition all_values {V} (l : list (arr V * Z)) (ix : list nat) : list V := flat_map (fun x => values x ix) l.

(** half sums, half differences of the first and second half of a list *)
Definition halves (sign : R) (l : list R) : list R :=
  let h := Nat.div (length l) 2 in
  map (fun j => (nth j l 0 + sign * nth (h + j) l 0) / 2) (seq 0 h).
Definition seen (use : string) (l : list R) : list R :=
  if String.eqb use "even" then halves 1 l else if String.eqb use "odd" then halves (-1) l else l.
(** what is to be cumulated for the component ix *)
Definition data_of (use : string) (l : list (arr R * Z)) (ix : list nat) : list R :=
  flat_map (fun x => seen use (values x ix)) l.
(** acceptable samples, of n data points *)
Definition sample_ok (use : string) (v : list nat) (x : arr R * Z) : Prop :=
  exists n, batch v n x /\ (0 < n)%nat /\ (use = "all"%string \/ (use = "even"%string \/ use = "odd"%string) /\ Nat.even n = true).

(** bin j of the edges e: closed on the left, and on the right if it is the last one *)
Definition in_bin (e : list R) (j : nat) (x : R) : bool :=
  (if Rle_dec (nth j e 0) x then true else false) &&
  ((if Rlt_dec x (nth (S j) e 0) then true else false) ||
   (Nat.eqb (S (S j)) (length e) && if Req_EM_T x (nth (S j) e 0) then true else false)).
(** not in any bin *)
Definition outside (e : list R) (x : R) : bool := negb (existsb (fun j => in_bin e j x) (seq 0 (length e - 1))).
Definition count (f : R -> bool) (l : list R) : Z := Z.of_nat (length (filter f l)).
Definition increasing (e : list R) : Prop := forall i j, (i < j)%nat -> (j < length e)%nat -> nth i e 0 < nth j e 0.
Definition nondecreasing (e : list R) : Prop := forall i j, (i <= j)%nat -> (j < length e)%nat -> nth i e 0 <= nth j e 0.
Definition bin_counts (e l : list R) : list Z := map (fun j => count (in_bin e j) l) (seq 0 (length e - 1)).

(** bins that can be given for data points of shape v: an array of objects must have the shape of the data points *)
Definition bins_for (v : list nat) (b : bspec R) : Prop := match b with BObj m => shp m = v | _ => True end.
