(** More on arrays: enumeration of indices, axes, reduction along the last axis. *)
From Coq Require Import List Arith Bool Lia ZArith.
From Verif Require Import Base BaseNum BaseArr.
Import ListNotations.

(** [np.ndindex(s)]: all indices, in row-major order *)
Fixpoint ndindex (s : list nat) : list (list nat) :=
  match s with
  | [] => [[]]
  | d :: s' => flat_map (fun i => map (cons i) (ndindex s')) (seq 0 d)
  end.

Definition del_at {A} (k : nat) (l : list A) : list A := firstn k l ++ skipn (S k) l.
Definition ins_at {A} (k : nat) (x : A) (l : list A) : list A := firstn k l ++ x :: skipn k l.

(** [np.moveaxis(a, axis, -1)]; AxisError is a ValueError *)
Definition moveaxis_last {V} (a : arr V) (axis : Z) : res (arr V) :=
  match norm_index (length (shp a)) axis with
  | None => Err ValueError
  | Some k => Ok (mkArr (del_at k (shp a) ++ [nth k (shp a) 0])
                        (fun ix => dat a (ins_at k (last ix 0) (removelast ix))))
  end.

(** in-bounds check of a (prefix of an) index *)
Fixpoint in_prefix (s ix : list nat) : bool :=
  match ix, s with
  | [], _ => true
  | i :: ix', d :: s' => (i <? d) && in_prefix s' ix'
  | _ :: _, [] => false
  end.
(** [a[i]] for a tuple of non negative integers *)
Definition sub_arr {V} (a : arr V) (i : list nat) : res (arr V) :=
  if in_prefix (shp a) i then Ok (mkArr (skipn (length i) (shp a)) (fun ix => dat a (i ++ ix))) else Err IndexError.
(** all entries, row-major *)
Definition ravel {V} (a : arr V) : list V := map (dat a) (ndindex (shp a)).
Definition asize {V} (a : arr V) : nat := length (ndindex (shp a)).

Section Reduce.
Context {V : Type} {NV : Num V}.
Definition nsum (l : list V) : V := fold_left nadd l nzero.
Definition nmean (l : list V) : V := ndiv (nsum l) (nofnat (length l)).
(** the entries along the last axis *)
Definition row (a : arr V) (ix : list nat) : list V := map (fun j => dat a (ix ++ [j])) (seq 0 (last (shp a) 0)).
(** [a.mean(axis=-1)] *)
Definition mean_last (a : arr V) : arr V := mkArr (removelast (shp a)) (fun ix => nmean (row a ix)).
(** [a[..., np.newaxis]] *)
Definition new_last (a : arr V) : arr V := mkArr (shp a ++ [1]) (fun ix => dat a (removelast ix)).
End Reduce.
