(** Specification of standard deviations, for C78. *)
From Coq Require Import Reals.
Local Open Scope R_scope.

Definition deviation (s v : R) : Prop := 0 <= s /\ s * s = v.
