(** Model of the last step of an integration: SDE.result (integration.py 1530-1553), called by SDE.exit (1193-1197: the
    exponential of log processes is in M_sde), and integrator.exit (736-738).

    - xx has the shape of the timeline followed by that of the values and by the number of paths [w]. Its entries at points
      that are never stored are uninitialised memory (np.empty): zero here.
    - Timelines are one-dimensional: a number is a timeline of one point. *)
From Coq Require Import String List Arith Bool ZArith.
From Verif Require Import Base BaseNum BaseOrd BaseArr BaseNd M_paths M_sde M_process.
Import ListNotations.
Local Open Scope res_scope.

Section Result.
Context {V : Type} {NV : Num V}.
(** the array xx *)
Definition xx_array (w : list nat) (xx : list (option (buf V))) : arr V :=
  mkArr (List.length xx :: w) (fun ix => match nth_error xx (hd 0 ix) with Some (Some y) => y (tl ix) | _ => nzero end).
(** the array tt *)
Definition tt_array (timeline : list V) : arr V := mkArr [List.length timeline] (fun ix => nth (hd 0 ix) timeline nzero).
(** process(t=tt, x=xx) *)
Definition sde_result (w : list nat) (timeline : list V) (xx : list (option (buf V))) : res (proc V) :=
  process_new (tt_array timeline) (Some (xx_array w xx)) None None.
(** what a call of the integrator gives *)
Definition sde_process {S : Type} (w : list nat) (timeline : list V) (r : res (S * list (option (buf V)))) : res (S * proc V) :=
  ' (s, xx) <- r ;; p <- sde_result w timeline xx ;; Ok (s, p).
End Result.
