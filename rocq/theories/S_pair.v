(** Specification of statistics of antithetic paths. *)
From Coq Require Import String List Arith ZArith Reals.
From Verif Require Import Base BaseNum BaseArr BaseNd M_mc M_process S_process S_stat.
Import ListNotations.
Local Open Scope R_scope.

Definition monotone (f : R -> R) : Prop := (forall x y, x <= y -> f x <= f y) \/ (forall x y, x <= y -> f y <= f x).
(** montecarlo(sample, bins=bins, range=range, use=use), and its statistics *)
Section Mc.
Variables (use : string) (auto : string -> list R -> option (R * R) -> res nat) (bins : bspec R) (range : option (R * R)) (sample : arr R).
Definition mcu_done : Prop := exists n a, mc_updates auto 0 (mc_new bins range use) [(sample, (-1)%Z)] = ((n, a), Ok tt).
Let obj := fst (mc_updates auto 0 (mc_new bins range use) [(sample, (-1)%Z)]).
Definition mcu_mean_at (r : list nat) : R := match mc_mean (snd obj) with Some m => dat m r | None => 0 end.
Definition mcu_var_at (r : list nat) : R := array_at 0 (mc_var (fst obj) (snd obj)) r.
Definition mcu_stderr_at (r : list nat) : R := match mc_stderr (fst obj) (snd obj) with Some (Ok e) => dat e r | _ => 0 end.
End Mc.
