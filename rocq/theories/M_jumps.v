(** Model of the jump sources of the Merton and Kou processes, integration.py 2699-2747, with the distributions they
    pass to the source, infrastructure.py 1640-1650, 1653-1664, 1696-1712, 1715-1720.

    - scipy's norm(loc=a, scale=b) refuses negative b when it is sampled. *)
From Coq Require Import List Arith Bool ZArith.
From Verif Require Import Base BaseNum BaseArr BaseNd BaseIdx M_process M_source M_rv M_integrate.
Import ListNotations.
Local Open Scope res_scope.

Section Jumps.
Context {V : Type} {NV : Num V} {G : Type}.
Variables (std_exp std_uniform std_normal : list nat -> @draws G (arr V)) (poisson : arr V -> list nat -> @draws G (arr Z)).

(** _norm_rv 1715-1720 *)
Definition norm_new (l : list (arr V)) : res (sampler (V := V) (G := G)) :=
  match l with
  | [a; b] =>
      match bshape (shp a) (shp b) with
      | None => Err ValueError
      | Some s =>
          let a := mkArr s (bget a) in
          let b := mkArr s (bget b) in
          Ok (fun size => if any (fun x => nlt x nzero) b then dfail ValueError else norm_rvs std_normal a b size)
      end
  | _ => Err TypeError
  end.
(** _double_exp_rv 1757-1777 *)
Definition double_exp_new (l : list (arr V)) : res (sampler (V := V) (G := G)) :=
  match l with
  | [a; b; pa] => d <- double_new a b pa ;; Ok (double_rvs std_exp std_uniform d)
  | _ => Err TypeError
  end.
(** norm_rv 1653-1664, double_exp_rv 1696-1712 *)
Definition norm_rv (a b : input V) : res (rv (V := V) (sampler (V := V) (G := G))) := make_variable norm_new [a; b].
Definition double_exp_rv (a b pa : input V) : res (rv (V := V) (sampler (V := V) (G := G))) := make_variable double_exp_new [a; b; pa].

(** merton_jumpdiff_SDE.source_dj, integration.py 2707-2710 *)
Definition merton_source_dj (dj : given_source (src (V := V) (G := G) (arr V))) (dn : given_source (src (V := V) (G := G) (arr Z)))
           (lam a b : input V) (paths : nat) (wshape : list nat) : res (src (V := V) (G := G) (arr V)) :=
  y <- norm_rv a b ;; source_dj poisson (rvs_of y) dj dn lam paths wshape.
(** kou_jumpdiff_SDE.source_dj, integration.py 2743-2747 *)
Definition kou_source_dj (dj : given_source (src (V := V) (G := G) (arr V))) (dn : given_source (src (V := V) (G := G) (arr Z)))
           (lam a b pa : input V) (paths : nat) (wshape : list nat) : res (src (V := V) (G := G) (arr V)) :=
  y <- double_exp_rv a b pa ;; source_dj poisson (rvs_of y) dj dn lam paths wshape.
End Jumps.
