(** Model of the analytical results (/repo/sdepy/analytical.py).

    Formulas are on real (or complex) numbers.  NumPy evaluates them elementwise on
    broadcast arrays ([np.broadcast_arrays] opens each function): one element is
    modelled, but for [_hw2f_args_setup], that selects components.  Divisions by zero
    give nan or inf in the code: theorems exclude them, except in the Black-Scholes
    formulas, where infinite values are modelled. *)
From Coq Require Import List Arith Bool Reals.
From Coquelicot Require Import Complex.
From Verif Require Import Base BaseArr.
Import ListNotations.
Local Open Scope res_scope.
Local Open Scope R_scope.

(** *** Moments *)
(** analytical.py 37, 54 *)
Definition wiener_mean (x0 mu sigma t : R) : R := x0 + mu*t.
Definition wiener_var (x0 mu sigma t : R) : R := sigma*sigma*t.
(** 146, 162 *)
Definition lognorm_mean (x0 mu sigma t : R) : R := x0 * exp (mu*t).
Definition lognorm_var (x0 mu sigma t : R) : R := x0*x0 * (exp (sigma*sigma*t) - 1) * exp (2*mu*t).
(** 253, 269; the same functions are hw1f_mean, hw1f_var (329-330) *)
Definition oruh_mean (x0 theta k sigma t : R) : R := theta - exp (-k*t) * (theta - x0).
Definition oruh_var (x0 theta k sigma t : R) : R := (sigma*sigma)/(2*k)*(1 - exp (-2*k*t)).
(** 496-497, 513-515 *)
Definition cir_mean (x0 theta k xi t : R) : R :=
  let alpha := exp (-k*t) in theta + (x0 - theta) * alpha.
Definition cir_var (x0 theta k xi t : R) : R :=
  let alpha := exp (-k*t) in (xi*xi / k) * (1 - alpha) * (theta/2 + (x0 - theta/2) * alpha).
(** 576-579 *)
Definition heston_log_mean (x0 mu sigma y0 theta k xi rho t : R) : R :=
  let alpha := exp (-k*t) in
  ln x0 + sigma*sigma * (theta - y0) * (1-alpha) / (2*k) + (mu - theta*sigma*sigma/2) * t.
(** 595-613 *)
Definition heston_log_var (x0 mu sigma y0 theta k xi rho t : R) : R :=
  let alpha := exp (-k*t) in
  let omega1 := (alpha*sigma*xi)^2 +
    4*alpha * ((1 + k*t)*(sigma*xi)^2 - 2*rho*k*sigma*xi*(2 + k*t) + 2*k*k) +
    (2*k*t - 5) * (sigma*xi)^2 - 8*rho*k*sigma*xi * (k*t - 2) + 8*k*k * (k*t - 1) in
  let omega2 := -(alpha*sigma*xi)^2 +
    2*alpha * (-(sigma*xi)^2 * k*t + 2*rho*sigma*xi*k * (k*t + 1) - 2*k*k) +
    (sigma*xi)^2 - 4*rho*k*sigma*xi + 4*k*k in
  sigma*sigma*(theta*omega1/2 + y0*omega2) / (4*k^3).
(** 741-746 *)
Definition mjd_mean (x0 mu sigma lam a b t : R) : R :=
  let exp_mean := exp (a + b*b/2) in
  let nu := lam*(exp_mean - 1) in
  let mu1 := mu + nu in
  x0 * exp (mu1*t).
(** 829-836 *)
Definition kou_mean (x0 mu sigma lam a b pa t : R) : R :=
  let pb := 1 - pa in
  let exp_mean := pa/(1 - a) + pb/(1 + b) in
  let nu := lam*(exp_mean - 1) in
  let mu1 := mu + nu in
  x0 * exp (mu1*t).

(** *** Two factor Hull-White *)
(** the formulas in hw2f_mean 392-393, hw2f_var 411-413 *)
Definition hw2f_mean1 (x1 x2 theta1 theta2 k1 k2 t : R) : R :=
  theta1 - exp (-k1*t) * (theta1 - x1) + theta2 - exp (-k2*t) * (theta2 - x2).
Definition hw2f_var1 (k1 k2 s1 s2 rho t : R) : R :=
  (s1*s1)/(2*k1)*(1 - exp (-2*k1*t)) + (s2*s2)/(2*k2)*(1 - exp (-2*k2*t)) +
  (2*s1*s2*rho)/(k1 + k2)*(1 - exp (-(k1 + k2)*t)).
(** [np.broadcast_arrays]: the common shape *)
Fixpoint bshapes (l : list (arr R)) : res (list nat) :=
  match l with
  | [] => Ok []
  | a :: l' => s <- bshapes l' ;; match bshape (shp a) s with Some r => Ok r | None => Err ValueError end
  end.
Definition at_shape (s : list nat) (a : arr R) : arr R := mkArr s (bget a).
(** x[0] or x[..., 0, :] (first = true), x[-1] or x[..., -1, :] *)
Definition pick (first : bool) (x : arr R) : res (arr R) :=
  match rev (shp x) with
  | [] => Ok x
  | [n] => if (n =? 0)%nat then Err IndexError
           else Ok (mkArr [] (fun _ => dat x [if first then O else (n - 1)%nat]))
  | p :: n :: r => if (n =? 0)%nat then Err IndexError
                   else Ok (mkArr (rev (p :: r)) (fun ix =>
                          match rev ix with
                          | i :: ix' => dat x (rev (i :: (if first then O else (n - 1)%nat) :: ix'))
                          | [] => dat x []
                          end))
  end.
Definition factors_ok (s : list nat) : bool :=
  match rev s with
  | [] => true
  | [n] => ((n =? 1) || (n =? 2))%nat
  | _ :: n :: _ => ((n =? 1) || (n =? 2))%nat
  end.
(** [_hw2f_args_setup], analytical.py 340-374, and elementwise evaluation of
    f x1 x2 theta1 theta2 k1 k2 s1 s2 rho t *)
Definition hw2f_eval (f : R -> R -> R -> R -> R -> R -> R -> R -> R -> R -> R)
           (x0 theta k sigma rho t : arr R) : res (arr R) :=
  s <- bshapes [x0; theta; k; sigma] ;;
  let g := fun first x => pick first (at_shape s x) in
  x1 <- g true x0 ;; x2 <- g false x0 ;;
  th1 <- g true theta ;; th2 <- g false theta ;;
  k1 <- g true k ;; k2 <- g false k ;;
  s1 <- g true sigma ;; s2 <- g false sigma ;;
  if factors_ok s then
    w <- bshapes [x1; x2; th1; th2; k1; k2; s1; s2; rho; t] ;;
    Ok (mkArr w (fun ix => f (bget x1 ix) (bget x2 ix) (bget th1 ix) (bget th2 ix) (bget k1 ix) (bget k2 ix)
                             (bget s1 ix) (bget s2 ix) (bget rho ix) (bget t ix)))
  else Err ValueError.
Definition hw2f_mean (x0 theta k sigma rho t : arr R) : res (arr R) :=
  hw2f_eval (fun x1 x2 th1 th2 k1 k2 s1 s2 rho t => hw2f_mean1 x1 x2 th1 th2 k1 k2 t) x0 theta k sigma rho t.
Definition hw2f_var (x0 theta k sigma rho t : arr R) : res (arr R) :=
  hw2f_eval (fun x1 x2 th1 th2 k1 k2 s1 s2 rho t => hw2f_var1 k1 k2 s1 s2 rho t) x0 theta k sigma rho t.

(** *** Characteristic functions: [C] are the complex numbers, [Ci] the imaginary unit *)
(** NumPy's exp, sqrt, log of a complex number (principal values) *)
Definition cexp (z : C) : C := (exp (fst z) * cos (snd z), exp (fst z) * sin (snd z)).
Definition csqrt (z : C) : C :=
  let m := Cmod z in
  (sqrt ((m + fst z)/2), if Rlt_dec (snd z) 0 then - sqrt ((m - fst z)/2) else sqrt ((m - fst z)/2)).
(** argument, in (-PI, PI] *)
Definition carg (z : C) : R :=
  let a := acos (fst z / Cmod z) in if Rlt_dec (snd z) 0 then - a else a.
Definition clog (z : C) : C := (ln (Cmod z), carg z).

Local Open Scope C_scope.
Definition cj (x : R) : C := (0%R, x).     (* 1j*x *)
(** analytical.py 125 *)
Definition wiener_chf (x0 mu sigma t u : R) : C :=
  cexp (cj u * x0 + t * (cj mu * u - (sigma*sigma*u*u/2)%R)).
(** 231-232 *)
Definition lognorm_log_chf (x0 mu sigma t u : R) : C :=
  let mu0 := (mu - sigma*sigma/2)%R in
  cexp (cj u * ln x0 + t * (cj mu0 * u - (sigma*sigma*u*u/2)%R)).
(** 651-661 *)
Definition heston_log_chf (x0 mu sigma y0 theta k xi rho t u : R) : C :=
  let d := csqrt ((cj (rho*sigma*xi*u) - k) * (cj (rho*sigma*xi*u) - k) + ((sigma*xi)^2*u)%R * (Ci + u)) in
  let ap := k - cj (rho*sigma*xi*u) - d in
  let am := k - cj (rho*sigma*xi*u) + d in
  let g := ap / am in
  let alpha := cexp (- d * t) in
  let A := cj u * (ln x0 + mu*t)%R in
  let A := A + (theta*k/(xi*xi))%R * (ap * t - 2 * clog ((1 - g*alpha)/(1 - g))) in
  let A := A + (y0/(xi*xi))%R * ap * (1 - alpha)/(1 - g*alpha) in
  cexp A.
(** 773-779 *)
Definition mjd_log_chf (x0 mu sigma lam a b t u : R) : C :=
  let mu0 := (mu - sigma*sigma/2)%R in
  cexp (cj u * ln x0 +
        t * (cj mu0 * u - (sigma*sigma*u*u/2)%R + lam * (cexp (cj a * u - (b*b*u*u/2)%R) - 1))).
(** 865-870 *)
Definition kou_log_chf (x0 mu sigma lam a b pa t u : R) : C :=
  let pb := (1 - pa)%R in
  let mu0 := (mu - sigma*sigma/2)%R in
  cexp (cj u * ln x0 +
        t * (cj mu0 * u - (sigma*sigma*u*u/2)%R + cj u * lam * (pa/((1/a)%R - cj u) - pb/((1/b)%R + cj u)))).
Local Close Scope C_scope.

(** *** Black-Scholes *)
(** numbers, with infinite values and nan *)
Inductive ext := Fin (x : R) | PInf | MInf | NaN.
Definition is_nan (x : ext) : bool := match x with NaN => true | _ => false end.
Definition sgn (x : R) : comparison := match total_order_T x 0 with
  | inleft (left _) => Lt | inleft (right _) => Eq | inright _ => Gt end.
Definition inf_of (x : R) : ext := match sgn x with Lt => MInf | Eq => NaN | Gt => PInf end.
Definition eneg (x : ext) : ext := match x with Fin x => Fin (- x) | PInf => MInf | MInf => PInf | NaN => NaN end.
Definition eadd (x y : ext) : ext :=
  match x, y with
  | Fin x, Fin y => Fin (x + y)
  | NaN, _ | _, NaN | PInf, MInf | MInf, PInf => NaN
  | PInf, _ | _, PInf => PInf
  | MInf, _ | _, MInf => MInf
  end.
Definition esub (x y : ext) : ext := eadd x (eneg y).
(** np.inf * x *)
Definition einf (x : ext) : ext :=
  match x with Fin x => inf_of x | PInf => PInf | MInf => MInf | NaN => NaN end.
(** division by a number that is not 0 *)
Definition ediv (x : ext) (y : R) : ext :=
  match x with
  | Fin x => Fin (x / y)
  | PInf => inf_of y
  | MInf => inf_of (- y)
  | NaN => NaN
  end.
(** x / y, with inf or nan if y is 0 *)
Definition rdiv (x y : R) : ext := if Req_EM_T y 0 then inf_of x else Fin (x / y).
Definition elog (x : ext) : ext :=
  match x with
  | Fin x => match sgn x with Lt => NaN | Eq => MInf | Gt => Fin (ln x) end
  | PInf => PInf
  | _ => NaN
  end.
Definition esqrt (x : R) : ext := if Rlt_dec x 0 then NaN else Fin (sqrt x).
Definition emul (x : R) (y : ext) : ext :=      (* y is not infinite *)
  match y with Fin y => Fin (x * y) | _ => NaN end.
Definition ezero (x : ext) : bool := match x with Fin x => if Req_EM_T x 0 then true else false | _ => false end.

(** [bsd1d2], analytical.py 906-930 *)
Definition bsd1d2 (k t x0 r q sigma : R) : res (ext * ext) :=
  let A := eadd (elog (rdiv x0 k)) (Fin ((r - q + 0.5 * sigma^2) * t)) in
  let B := emul sigma (esqrt t) in
  let d1 := if ezero B then (if ezero A then Fin 0 else einf A)
            else match B with Fin b => ediv A b | _ => NaN end in
  if is_nan d1 then Err AssertionError else Ok (d1, esub d1 B).

Section BS.
(** scipy.stats.norm.cdf on finite numbers *)
Variable Phi : R -> R.
(** nan is not a number: in the prices below it does not occur, see [C53_parity] *)
Definition ncdf (x : ext) : option R :=
  match x with Fin x => Some (Phi x) | PInf => Some 1 | MInf => Some 0 | NaN => None end.
Definition num (x : option R) : res R := match x with Some x => Ok x | None => Err AssertionError end.
(** [bscall] 934, [bscall_delta] 990, [bsput] 1006, [bsput_delta] 1023 *)
Definition bscall (k t x0 r q sigma : R) : res R :=
  ' (d1, d2) <- bsd1d2 k t x0 r q sigma ;;
  c1 <- num (ncdf d1) ;; c2 <- num (ncdf d2) ;;
  Ok (x0 * exp (-q*t) * c1 - k * exp (-r*t) * c2).
Definition bscall_delta (k t x0 r q sigma : R) : res R :=
  ' (d1, d2) <- bsd1d2 k t x0 r q sigma ;;
  c1 <- num (ncdf d1) ;;
  Ok (exp (-q*t) * c1).
Definition bsput (k t x0 r q sigma : R) : res R :=
  ' (d1, d2) <- bsd1d2 k t x0 r q sigma ;;
  c2 <- num (ncdf (eneg d2)) ;; c1 <- num (ncdf (eneg d1)) ;;
  Ok (k * exp (-r*t) * c2 - x0 * exp (-q*t) * c1).
Definition bsput_delta (k t x0 r q sigma : R) : res R :=
  ' (d1, d2) <- bsd1d2 k t x0 r q sigma ;;
  c1 <- num (ncdf (eneg d1)) ;;
  Ok (- exp (-q*t) * c1).
End BS.
