(** Model of the densities computed from characteristic functions, analytical.py 664-688 and the functions that use it.

    - [quad f] is the value returned by scipy.integrate.quad(f, -inf, inf); its estimate of the error, and the warnings it may
      give, are left out, as in the code.
    - Parameters are numbers; t and x are arrays.
    - If neither t nor x is a scalar, quad is given a function with values that are arrays, of the shape of x: it raises an
      error, here TypeError.  (It does not with arrays x of one entry,
      that NumPy may convert to a number, nor with arrays t of no entries, that give no entries: neither is modelled.) *)
From Coq Require Import List Reals.
From Coquelicot Require Import Coquelicot.
From Verif Require Import Base BaseArr M_analytical.
Import ListNotations.
Local Open Scope R_scope.

Section Pdf.
Variable quad : (R -> R) -> R.
(** 674-676 *)
Definition pdf_integrand (chf : R -> R -> C) (u t x : R) : R :=
  fst (cexp (Copp Ci * u * x) / RtoC (2*PI) * chf t u)%C.
(** 677-686 *)
Definition chf_to_pdf (t x : arr R) (chf : R -> R -> C) : res (arr R) :=
  match shp t with
  | [] => Ok (mkArr (shp x) (fun i => quad (fun u => pdf_integrand chf u (dat t []) (dat x i))))
  | _ :: _ =>
      match shp x with
      | [] => Ok (mkArr (shp t) (fun i => quad (fun u => pdf_integrand chf u (dat t i) (dat x []))))
      | _ :: _ => Err TypeError
      end
  end.
(** 691-718, 780-806, 873-899 *)
Definition heston_log_pdf (t logx : arr R) (x0 mu sigma y0 theta k xi rho : R) : res (arr R) :=
  chf_to_pdf t logx (heston_log_chf x0 mu sigma y0 theta k xi rho).
Definition mjd_log_pdf (t logx : arr R) (x0 mu sigma lam a b : R) : res (arr R) :=
  chf_to_pdf t logx (mjd_log_chf x0 mu sigma lam a b).
Definition kou_log_pdf (t logx : arr R) (x0 mu sigma lam a b pa : R) : res (arr R) :=
  chf_to_pdf t logx (kou_log_chf x0 mu sigma lam a b pa).
End Pdf.
