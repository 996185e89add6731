(** Specification of statistics of simulated processes. *)
From Coq Require Import String List Arith ZArith Reals.
From Verif Require Import Base BaseNum BaseArr BaseNd M_mc M_process S_process.
Import ListNotations.
Local Open Scope R_scope.

(** the process that a call gives (one without times, if it fails) *)
Definition proc_of {S} (r : res (S * proc R)) : proc R := match r with Ok (_, p) => p | Err _ => mkProc [] (mkArr [] (fun _ => 0)) Linear end.
(** an entry of a process, of an array: z if there is none *)
Definition entry_of (r : res (proc R)) (ix : list nat) : R := match r with Ok q => dat (px q) ix | Err _ => 0 end.
Definition array_at {V} (z : V) (r : res (arr V)) (ix : list nat) : V := match r with Ok a => dat a ix | Err _ => z end.
(** f(x), x being the array of values of a process at the i-th point of its timeline *)
Definition at_point (f : R -> R) (p : proc R) (i : nat) : arr R := mkArr (comp p) (fun ix => f (dat (px p) (i :: ix))).
(** montecarlo(sample, bins=bins, range=range), and its statistics *)
Section Mc.
Variables (auto : string -> list R -> option (R * R) -> res nat) (bins : bspec R) (range : option (R * R)) (sample : arr R).
Definition mc_done : Prop := exists n a, mc_updates auto 0 (mc_new bins range "all") [(sample, (-1)%Z)] = ((n, a), Ok tt).
Let obj := fst (mc_updates auto 0 (mc_new bins range "all") [(sample, (-1)%Z)]).
Definition mc_mean_at (r : list nat) : R := match mc_mean (snd obj) with Some m => dat m r | None => 0 end.
Definition mc_var_at (r : list nat) : R := array_at 0 (mc_var (fst obj) (snd obj)) r.
Definition mc_stderr_at (r : list nat) : R := match mc_stderr (fst obj) (snd obj) with Some (Ok e) => dat e r | _ => 0 end.
End Mc.
