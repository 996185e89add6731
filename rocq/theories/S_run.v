(** Reference semantics of a run of the simulation engine with one step methods
    that do not shorten steps: a plain recursion along the grid. *)
From Coq Require Import List ZArith Bool.
From Verif Require Import Base BaseOrd M_paths S_paths.
Import ListNotations.

Section Ref.
Context {T : Type} {TO : TOrd T} {S X Y : Type}.
Variable cb : callbacks T S X Y.

(** numeric membership *)
Definition memT (t : T) (l : list T) : bool := existsb (teqb t) l.

Section Dir.
Variable rv : bool.          (* direction *)
Variable tl grid : list T.   (* output points and all grid points, in the direction of travel *)

(** From time [t] and value [x], [i] outputs having been produced, go along the
    remaining grid points: advance, then produce an output if the new time is an output point. *)
Fixpoint ref_steps (i : nat) (s : S) (t : T) (x : X) (todo : list T) : res (S * list Y) :=
  match todo with
  | [] => Ok (s, [])
  | t' :: todo' =>
      match cb_next cb (mkIv grid tl rv i) s [t] t' [x] with
      | Err e => Err e
      | Ok (s1, _, x1) =>
          if memT t' tl then
            match cb_store cb (mkIv grid tl rv i) s1 i t' x1 with
            | Err e => Err e
            | Ok (s2, y) =>
                match ref_steps (Datatypes.S i) s2 t' x1 todo' with
                | Err e => Err e
                | Ok (s3, ys) => Ok (s3, y :: ys)
                end
            end
          else ref_steps i s1 t' x1 todo'
      end
  end.

(** A whole pass: initialize at the first grid point, produce the first output,
    go along the grid, finalize. *)
Definition ref_pass (s : S) : res (S * list Y) :=
  match grid with
  | [] => Err IndexError
  | t :: todo =>
      match cb_begin cb (mkIv grid tl rv 0) s [t] with
      | Err e => Err e
      | Ok (s1, xw) =>
          match xw with
          | [] => Err IndexError
          | x :: _ =>
              match cb_store cb (mkIv grid tl rv 0) s1 0 t x with
              | Err e => Err e
              | Ok (s2, y) =>
                  match ref_steps 1 s2 t x todo with
                  | Err e => Err e
                  | Ok (s3, ys) =>
                      match cb_end cb (mkIv grid tl rv (length tl)) s3 with
                      | Err e => Err e
                      | Ok s4 => Ok (s4, y :: ys)
                      end
                  end
              end
          end
      end
  end.
End Dir.

(** The merged grid, from [t0] on in the direction of travel. *)
Definition run_grid (rv : bool) (timeline pace : list T) (t0 : T) : list T :=
  let m := merge_steps timeline pace in
  if rv then rev (filter (fun s => tleb s t0) m) else filter (fun s => tleb t0 s) m.

(** Both passes.  The entry at the starting point is that of the last pass run. *)
Definition ref_run (timeline : list T) (i0 : Z) (p0 : nat) (gb gf : list T) (s : S) : res (S * list Y) :=
  let back := negb (i0 =? 0)%Z in
  let forth := ((i0 =? 0) || negb ((i0 =? -1) || (i0 =? Z.of_nat (length timeline) - 1)))%Z in
  match (if back then ref_pass true (rev (firstn (p0 + 1) timeline)) gb s else Ok (s, [])) with
  | Err e => Err e
  | Ok (s1, ysb) =>
      match (if forth then ref_pass false (skipn p0 timeline) gf s1 else Ok (s1, [])) with
      | Err e => Err e
      | Ok (s2, ysf) => Ok (s2, if forth then rev (List.tl ysb) ++ ysf else rev ysb)
      end
  end.
End Ref.
