(** Model of the densities and distribution functions (/repo/sdepy/analytical.py), at one point: as in [M_analytical] NumPy evaluates
    them elementwise.  None is nan.  SciPy's distributions return nan unless scale > 0 (and, for lognorm, s > 0). *)
From Coq Require Import Reals.
From Verif Require Import M_analytical.
Local Open Scope R_scope.

Section Dist.
(** distribution function of the standard normal, scipy.special.ndtr *)
Variable Phi : R -> R.
(** scipy.stats.norm.pdf(x, loc, scale), norm.cdf *)
Definition norm_pdf (x loc scale : R) : option R :=
  if Rlt_dec 0 scale then let z := (x - loc)/scale in Some (exp (- (z*z/2))/sqrt (2*PI)/scale) else None.
Definition norm_cdf (x loc scale : R) : option R :=
  if Rlt_dec 0 scale then Some (Phi ((x - loc)/scale)) else None.
(** scipy.stats.lognorm.pdf(x, s, scale=scale), lognorm.cdf: 0 where x <= 0 *)
Definition sp_lognorm_pdf (x s scale : R) : option R :=
  if Rlt_dec 0 s then if Rlt_dec 0 scale then
    if Rlt_dec 0 x then let z := ln (x/scale)/s in Some (exp (- (z*z/2))/(s*(x/scale)*sqrt (2*PI))/scale) else Some 0
  else None else None.
Definition sp_lognorm_cdf (x s scale : R) : option R :=
  if Rlt_dec 0 s then if Rlt_dec 0 scale then
    if Rlt_dec 0 x then Some (Phi (ln (x/scale)/s)) else Some 0
  else None else None.

(** [wiener_pdf] 86-89, [wiener_cdf] 105-108 *)
Definition wiener_pdf (x0 mu sigma t x : R) : option R :=
  let mean := x0 + mu*t in let std := sigma*sqrt t in norm_pdf x mean std.
Definition wiener_cdf (x0 mu sigma t x : R) : option R :=
  let mean := x0 + mu*t in let std := sigma*sqrt t in norm_cdf x mean std.
(** [lognorm_pdf] 192-195, [lognorm_cdf] 211-214 *)
Definition lognorm_pdf (x0 mu sigma t x : R) : option R :=
  let mt := mu*t in let st := sigma*sqrt t in sp_lognorm_pdf x st (x0*exp (mt - st*st/2)).
Definition lognorm_cdf (x0 mu sigma t x : R) : option R :=
  let mt := mu*t in let st := sigma*sqrt t in sp_lognorm_cdf x st (x0*exp (mt - st*st/2)).
(** [oruh_pdf] 302-304, [oruh_cdf] 321-323; the same functions are hw1f_pdf, hw1f_cdf (332-333) *)
Definition oruh_pdf (x0 theta k sigma t x : R) : option R :=
  norm_pdf x (oruh_mean x0 theta k sigma t) (sqrt (oruh_var x0 theta k sigma t)).
Definition oruh_cdf (x0 theta k sigma t x : R) : option R :=
  norm_cdf x (oruh_mean x0 theta k sigma t) (sqrt (oruh_var x0 theta k sigma t)).
(** [hw2f_pdf] 452-456, [hw2f_cdf] 471-475, once the factors are selected *)
Definition hw2f_pdf (x1 x2 theta1 theta2 k1 k2 s1 s2 rho t x : R) : option R :=
  norm_pdf x (hw2f_mean1 x1 x2 theta1 theta2 k1 k2 t) (sqrt (hw2f_var1 k1 k2 s1 s2 rho t)).
Definition hw2f_cdf (x1 x2 theta1 theta2 k1 k2 s1 s2 rho t x : R) : option R :=
  norm_cdf x (hw2f_mean1 x1 x2 theta1 theta2 k1 k2 t) (sqrt (hw2f_var1 k1 k2 s1 s2 rho t)).
End Dist.

Section Cir.
(** modified Bessel function of the first kind, scipy.special.iv *)
Variable iv : R -> R -> R.
(** x**y with real x, y: here None stands for inf (x = 0, y < 0) and, for x < 0, for nan or a power with an integer exponent *)
Definition np_power (x y : R) : option R :=
  if Rlt_dec 0 x then Some (Rpower x y) else
  if Req_EM_T x 0 then (if Rlt_dec 0 y then Some 0 else if Req_EM_T y 0 then Some 1 else None) else None.
(** [cir_pdf] 546-552 *)
Definition cir_pdf (x0 theta k xi t x : R) : option R :=
  let alpha := exp (- k*t) in
  let c := 2*k/(1 - alpha)/(xi*xi) in
  let q := 2*k*theta/(xi*xi) - 1 in
  match np_power (x/(x0*alpha)) (q/2) with
  | Some p => Some (c*exp (- c*(x0*alpha + x))*p*iv q (2*c*sqrt (x*x0*alpha)))
  | None => None
  end.
End Cir.
