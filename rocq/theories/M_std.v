(** Model of the standard deviations among the analytical results (/repo/sdepy/analytical.py). *)
From Coq Require Import List Reals.
From Verif Require Import Base BaseArr M_analytical.
Local Open Scope res_scope.
Local Open Scope R_scope.

(** analytical.py 70 *)
Definition wiener_std (x0 mu sigma t : R) : R := sqrt (wiener_var x0 mu sigma t).
(** 176 *)
Definition lognorm_std (x0 mu sigma t : R) : R := sqrt (lognorm_var x0 mu sigma t).
(** 286; the same function is hw1f_std (330) *)
Definition oruh_std (x0 theta k sigma t : R) : R := sqrt (oruh_var x0 theta k sigma t).
(** 434-435 *)
Definition hw2f_std (x0 theta k sigma rho t : arr R) : res (arr R) :=
  v <- hw2f_var x0 theta k sigma rho t ;; Ok (amap sqrt v).
(** 530 *)
Definition cir_std (x0 theta k xi t : R) : R := sqrt (cir_var x0 theta k xi t).
(** 630-632 *)
Definition heston_log_std (x0 mu sigma y0 theta k xi rho t : R) : R :=
  sqrt (heston_log_var x0 mu sigma y0 theta k xi rho t).
