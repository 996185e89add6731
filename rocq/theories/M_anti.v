(** Model of the antithetic sources, as made by their classes (/repo/sdepy/infrastructure.py 2047-2150).

    - The transformation -z is 0 - z.
    - Attributes (paths, vshape, dtype, rng) are not modelled: they are those of the underlying source, with twice its paths. *)
From Coq Require Import String List Arith Bool ZArith.
From Verif Require Import Base BaseNum BaseArr BaseNd BaseIdx M_process M_source M_integrate.
Import ListNotations.
Local Open Scope res_scope.

Section Anti.
Context {V : Type} {NV : Num V} {G : Type}.
Variables (normal : list nat -> @draws G (arr V)) (mvnormal : arr V -> list nat -> @draws G (arr V))
          (poisson : arr V -> list nat -> @draws G (arr Z)) (rvs : V -> nat -> nat -> @draws G (arr V)).
(** 2056-2071: the underlying source has half of the paths, and the arguments given *)
Definition antithetics_source {A} (source_class : nat -> list nat -> res (src (V := V) (G := G) (arr A))) (transform : A -> A)
           (paths : nat) (vshape : list nat) : res (src (arr A)) :=
  n <- antithetics_new paths ;;
  s <- source_class n vshape ;;
  Ok (fun t dt => antithetics_call transform (s t dt)).
(** 2095-2110 *)
Definition odd_wiener_source (corr rho : input V) : nat -> list nat -> res (src (arr V)) :=
  antithetics_source (wiener_source normal mvnormal corr rho) (fun z => nsub nzero z).
(** 2113-2130 *)
Definition even_poisson_source (lam : input V) : nat -> list nat -> res (src (arr Z)) :=
  antithetics_source (poisson_source poisson lam) (fun z => z).
(** 2133-2150 *)
Definition even_cpoisson_source (dn : given_source (src (arr Z))) (lam : input V) : nat -> list nat -> res (src (arr V)) :=
  antithetics_source (cpoisson_source poisson rvs dn lam) (fun z => z).
End Anti.
