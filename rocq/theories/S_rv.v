(** Specifications for jump distributions: expectations over the standard variates. *)
From Coq Require Import List Reals.
From Coquelicot Require Import Coquelicot.
From Verif Require Import Base BaseNum BaseArr M_source M_rv.
Local Open Scope R_scope.

(** E[h(e)] = v, e with density exp(-e) on [0, inf) *)
Definition mean_exp (h : R -> R) (v : R) : Prop := is_RInt_gen (fun e => h e * exp (- e)) (at_point 0) (Rbar_locally p_infty) v.
(** E[h(u)] = v, u uniform on [0, 1] *)
Definition mean_uniform (h : R -> R) (v : R) : Prop := is_RInt h 0 1 v.
(** E[h(z)] = v, z with density exp(-z^2/2)/sqrt(2*PI) *)
Definition mean_normal (h : R -> R) (v : R) : Prop :=
  is_RInt_gen (fun z => h z * (exp (- (z*z/2))/sqrt (2*PI))) (Rbar_locally m_infty) (Rbar_locally p_infty) v.
(** E[h(e1, e2, u)] = v, independent variates *)
Definition mean_double (h : R -> R -> R -> R) (v : R) : Prop :=
  exists (f : R -> R) (g : R -> R -> R),
    (forall u e1, 0 < u < 1 -> mean_exp (fun e2 => h e1 e2 u) (g u e1)) /\ (forall u, 0 < u < 1 -> mean_exp (g u) (f u)) /\ mean_uniform f v.
(** E[h(e)] is infinite, h being positive *)
Definition infinite_mean_exp (h : R -> R) : Prop :=
  (forall e, 0 <= e -> 0 < h e) /\ filterlim (fun M => RInt (fun e => h e * exp (- e)) 0 M) (Rbar_locally p_infty) (Rbar_locally p_infty).
