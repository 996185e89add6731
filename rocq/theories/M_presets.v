(** Model of the preset processes (/repo/sdepy/integration.py 2056-2623): the
    equations, and the instances of the integrator they give.

    Arguments are taken after consolidation (all parameters present).  Random
    sources are given as functions of the state of the world. *)
From Coq Require Import String List Arith Bool ZArith.
From Verif Require Import Base BaseOrd BaseNum BaseArr M_paths M_sde.
Import ListNotations.
Local Open Scope res_scope.
Local Open Scope string_scope.

Section Presets.
Context {T : Type} {TO : TOrd T} {V : Type} {NV : Num V} {Wd I : Type}.

(** Python call with keyword arguments: a missing one is a TypeError *)
Definition arg (k : string) (args : dict (arr V)) : res (arr V) :=
  match lookup k args with Some a => Ok a | None => Err TypeError end.

Definition two : arr V := ascalar ntwo.

(** mu - sigma*sigma/2 *)
Definition log_drift (mu sigma : arr V) : res (arr V) :=
  ss <- aop nmul sigma sigma ;; h <- aop ndiv ss two ;; aop nsub mu h.

(** k*(theta - x) *)
Definition revert (k theta x : arr V) : res (arr V) :=
  d <- aop nsub theta x ;; aop nmul k d.

(** np.maximum(x, 0.) *)
Definition plus_part (x : arr V) : res (arr V) := aop nmax x (ascalar nzero).

(** integration.py 2065-2066 *)
Definition wiener_sde (t : T) (x : arr V) (args : dict (arr V)) : res (sdeval V) :=
  mu <- arg "mu" args ;; sigma <- arg "sigma" args ;;
  Ok (RDict [("dt", mu); ("dw", sigma)]).

(** integration.py 2130-2131 (log = True) *)
Definition lognorm_sde (t : T) (x : arr V) (args : dict (arr V)) : res (sdeval V) :=
  mu <- arg "mu" args ;; sigma <- arg "sigma" args ;;
  d <- log_drift mu sigma ;;
  Ok (RDict [("dt", d); ("dw", sigma)]).

(** integration.py 2198-2199; the same for hull_white_SDE, 2267-2268 *)
Definition ou_sde (t : T) (x : arr V) (args : dict (arr V)) : res (sdeval V) :=
  theta <- arg "theta" args ;; k <- arg "k" args ;; sigma <- arg "sigma" args ;;
  d <- revert k theta x ;;
  Ok (RDict [("dt", d); ("dw", sigma)]).

(** integration.py 2350-2354 *)
Definition cir_sde (t : T) (x : arr V) (args : dict (arr V)) : res (sdeval V) :=
  theta <- arg "theta" args ;; k <- arg "k" args ;; xi <- arg "xi" args ;;
  xp <- plus_part x ;;
  d <- revert k theta xp ;;
  s <- aop nmul xi (amap nsqrt xp) ;;
  Ok (RDict [("dt", d); ("dw", s)]).

(** integration.py 2425-2434 *)
Definition heston_sde (t : T) (xs : list (arr V)) (args : dict (arr V)) : res (sdeval V) :=
  match xs with
  | [x; y] =>
      mu <- arg "mu" args ;; sigma <- arg "sigma" args ;;
      theta <- arg "theta" args ;; k <- arg "k" args ;; xi <- arg "xi" args ;;
      yp <- plus_part y ;;
      ss <- aop nmul sigma sigma ;; ssy <- aop nmul ss yp ;; h <- aop ndiv ssy two ;;
      d1 <- aop nsub mu h ;;
      s1 <- aop nmul sigma (amap nsqrt yp) ;;
      d2 <- revert k theta yp ;;
      s2 <- aop nmul xi (amap nsqrt yp) ;;
      Ok (RSeq [RDict [("dt", d1); ("dw", s1)]; RDict [("dt", d2); ("dw", s2)]])
  | _ => Err TypeError
  end.

(** integration.py 2591-2607 (log = True) *)
Definition jumpdiff_sde (t : T) (x : arr V) (args : dict (arr V)) : res (sdeval V) :=
  mu <- arg "mu" args ;; sigma <- arg "sigma" args ;;
  d <- log_drift mu sigma ;;
  Ok (RDict [("dt", d); ("dw", sigma); ("dj", ascalar none)]).

(** sources of the diffusions: 'dt' and 'dw' (integration.py 975) *)
Definition dw_ids : list string := ["dt"; "dw"].
Definition dw_src (dw : Wd -> T -> V -> res (Wd * arr V)) (id : string) : Wd -> T -> V -> res (Wd * arr V) :=
  if String.eqb id "dt" then source_dt
  else if String.eqb id "dw" then dw
  else fun _ _ _ => Err KeyError.
Definition dj_ids : list string := ["dt"; "dw"; "dj"].
Definition dj_src (dw dj : Wd -> T -> V -> res (Wd * arr V)) (id : string) : Wd -> T -> V -> res (Wd * arr V) :=
  if String.eqb id "dt" then source_dt
  else if String.eqb id "dw" then dw
  else if String.eqb id "dj" then dj
  else fun _ _ _ => Err KeyError.

(** An instance of a one-equation SDE class with default init, let, result:
    vshape = xshape = wshape. *)
Definition mk_sde (ids : list string) (src : string -> Wd -> T -> V -> res (Wd * arr V)) (log : bool)
           (sde : T -> arr V -> dict (arr V) -> res (sdeval V)) (gi : bool)
           (vshape : list nat) (paths : nat) (x0 : arr V) (args : dict (param T V)) : integ T V Wd I :=
  let w := (vshape ++ [paths])%list in
  mkInteg ids src (sde_A ids args sde) w (sde_init w x0) log (sde_let w w) gi
          no_info_begin no_info_next no_info_store no_info_end.

Definition wiener_process dw := mk_sde dw_ids (dw_src dw) false wiener_sde.
Definition lognorm_process dw := mk_sde dw_ids (dw_src dw) true lognorm_sde.
Definition ou_process dw := mk_sde dw_ids (dw_src dw) false ou_sde.
Definition cir_process dw := mk_sde dw_ids (dw_src dw) false cir_sde.

(** [x.sum(axis=-2)]; the order of summation is not specified by NumPy, here
    from the first to the last. *)
Definition sum2 (x : arr V) : arr V :=
  mkArr (pop2 (shp x))
        (fun ix => fold_left (fun acc k => nadd acc (dat x (ins2 k ix))) (seq 0 (dim2 (shp x))) nzero).

(** hull_white_SDE, integration.py 2247-2272: wshape = vshape + (factors,). *)
Definition hull_white_process (dw : Wd -> T -> V -> res (Wd * arr V)) (gi : bool)
           (vshape : list nat) (factors paths : nat) (x0 : arr V) (args : dict (param T V)) : integ T V Wd I :=
  let w := (vshape ++ [factors; paths])%list in
  mkInteg dw_ids (dw_src dw) (sde_A dw_ids args ou_sde) w (sde_init w x0) false
          (fun t x => assign (vshape ++ [paths]) (sum2 (mkArr w x))) gi
          no_info_begin no_info_next no_info_store no_info_end.

(** [SDEs] instances.  [addaxis] is forced to True if vshape is () (integration.py 1686-1688). *)
Definition force_addaxis (addaxis : bool) (vshape : list nat) : bool :=
  match vshape with [] => true | _ => addaxis end.

Definition mk_sdes (q : nat) (addaxis0 : bool) (set_order : list string -> list string)
           (ids : list string) (src : string -> Wd -> T -> V -> res (Wd * arr V)) (log : bool)
           (sde : T -> list (arr V) -> dict (arr V) -> res (sdeval V)) (gi : bool)
           (vshape : list nat) (paths : nat) (x0 : arr V) (args : dict (param T V)) : integ T V Wd I :=
  let addaxis := force_addaxis addaxis0 vshape in
  let w := (sdes_wshape q addaxis vshape ++ [paths])%list in
  mkInteg ids src (sdes_A q addaxis vshape paths set_order ids args sde) w
          (sdes_init q addaxis vshape paths w x0) log (sde_let w w) gi
          no_info_begin no_info_next no_info_store no_info_end.

(** full_heston_SDE.init, integration.py 2415-2418: out_x, out_y are views of
    out_X (unpack), each is assigned. *)
Definition heston_init (addaxis : bool) (vshape : list nat) (paths : nat) (x0 y0 : arr V) (t : T) : res (buf V) :=
  let vp := (vshape ++ [paths])%list in
  x <- assign vp (amap nlog x0) ;;
  y <- assign vp y0 ;;
  Ok (fun ix =>
        if addaxis then
          match dim2 ix with 0 => x (pop2 ix) | _ => y (pop2 ix) end
        else
          let d := last vshape 0 in
          if Nat.ltb (dim2 ix) d then x ix else y (set2 (dim2 ix - d) ix)).

(** full_heston_SDE.info_begin, info_next (integration.py 2420-2423, 2436-2440). *)
Definition heston_info_next (addaxis : bool) (vshape : list nat) (w : list nat)
           (iv : itervars T) (wd : Wd) (last_x : buf V) (count : arr nat) : res (arr nat) :=
  xs <- unpack 2 addaxis vshape (mkArr w last_x) ;;
  match xs with
  | [_; y] =>
      if can (shp y) (shp count) then
        Ok (mkArr (shp count) (fun ix => dat count ix + if nlt (bget y ix) nzero then 1 else 0))
      else Err ValueError
  | _ => Err ValueError
  end.

(** full_heston_process: stores all components; info counts negative y. *)
Definition full_heston_process (dw : Wd -> T -> V -> res (Wd * arr V)) (set_order : list string -> list string)
           (gi : bool) (vshape : list nat) (paths : nat) (x0 y0 : arr V) (args : dict (param T V))
  : integ T V Wd (arr nat) :=
  let addaxis := force_addaxis false vshape in
  let w := (sdes_wshape 2 addaxis vshape ++ [paths])%list in
  mkInteg dw_ids (dw_src dw) (sdes_A 2 addaxis vshape paths set_order dw_ids args heston_sde) w
          (heston_init addaxis vshape paths x0 y0) false (sde_let w w) gi
          (fun _ _ => mkArr (vshape ++ [paths]) (fun _ => 0))
          (heston_info_next addaxis vshape w) (fun i => i) (fun _ i => Ok i).
(** full_heston_SDE.result, integration.py 2442-2445, at one output point *)
Definition full_heston_result (vshape : list nat) (paths : nat) (y : buf V) : res (arr V * arr V) :=
  let addaxis := force_addaxis false vshape in
  xs <- unpack 2 addaxis vshape (mkArr (sdes_wshape 2 addaxis vshape ++ [paths]) y) ;;
  match xs with
  | [x; y] => Ok (amap nexp x, y)
  | _ => Err ValueError
  end.

(** heston_SDE, integration.py 2517-2541: stores the first component only. *)
Definition heston_process (dw : Wd -> T -> V -> res (Wd * arr V)) (set_order : list string -> list string)
           (gi : bool) (vshape : list nat) (paths : nat) (x0 y0 : arr V) (args : dict (param T V))
  : integ T V Wd (arr nat) :=
  let addaxis := force_addaxis false vshape in
  let w := (sdes_wshape 2 addaxis vshape ++ [paths])%list in
  let xs := (vshape ++ [paths])%list in
  mkInteg dw_ids (dw_src dw) (sdes_A 2 addaxis vshape paths set_order dw_ids args heston_sde) w
          (heston_init addaxis vshape paths x0 y0) false
          (fun t x => X <- unpack1 addaxis (last vshape 0) (mkArr w x) 0 ;; assign xs X) gi
          (fun _ _ => mkArr (vshape ++ [paths]) (fun _ => 0))
          (heston_info_next addaxis vshape w) (fun i => i) (fun _ i => Ok i).
(** heston_SDE.result *)
Definition heston_result (vshape : list nat) (paths : nat) (y : buf V) : arr V :=
  amap nexp (mkArr (vshape ++ [paths]) y).

(** *** jumpdiff_SDE, integration.py 2576-2623 *)
Record jinfo := mkJ { jump_rate : list V; jump_count : buf V }.

(** all indices of an array *)
Fixpoint all_ix (s : list nat) : list (list nat) :=
  match s with
  | [] => [[]]
  | d :: s' => flat_map (fun i => map (cons i) (all_ix s')) (seq 0 d)
  end.
(** [dn_value.sum()] *)
Definition asum (a : arr V) : V := fold_left nadd (map (dat a) (all_ix (shp a))) nzero.

Definition jd_info_begin (iv : itervars T) (_ : jinfo) : jinfo :=
  mkJ (map (fun _ => nzero) (iv_tt iv)) (fun _ => nzero).
(** [dn_value] is the attribute of the source, if it has it *)
Definition jd_info_next (tsub : T -> T -> V) (w : list nat) (paths : nat) (dn_value : Wd -> option (arr V))
           (iv : itervars T) (wd : Wd) (_ : buf V) (j : jinfo) : res jinfo :=
  match dn_value wd with
  | None => Ok j
  | Some dn =>
      match nth_error (iv_tt iv) (iv_i iv), nth_error (iv_tt iv) (iv_i iv - 1),
            nth_error (jump_rate j) (iv_i iv - 1) with
      | Some ti, Some ti1, Some r =>
          let rate := upd (jump_rate j) (iv_i iv - 1)
                          (nadd r (ndiv (ndiv (asum dn) (tsub ti ti1)) (nofnat paths))) in
          if can (shp dn) w then
            Ok (mkJ rate (fun ix => nadd (jump_count j ix) (bget dn ix)))
          else Err ValueError
      | _, _, _ => Err IndexError
      end
  end.
Definition jd_info_end (iv : itervars T) (j : jinfo) : res jinfo :=
  if Nat.ltb 1 (List.length (iv_tt iv)) then
    let n := List.length (jump_rate j) in
    match nth_error (jump_rate j) (n - 2) with
    | Some r => Ok (mkJ (upd (jump_rate j) (n - 1) r) (jump_count j))
    | None => Err IndexError
    end
  else Ok j.

Definition jumpdiff_process (tsub : T -> T -> V) (dw dj : Wd -> T -> V -> res (Wd * arr V))
           (dn_value : Wd -> option (arr V)) (gi : bool)
           (vshape : list nat) (paths : nat) (x0 : arr V) (args : dict (param T V)) : integ T V Wd jinfo :=
  let w := (vshape ++ [paths])%list in
  mkInteg dj_ids (dj_src dw dj) (sde_A dj_ids args jumpdiff_sde) w (sde_init w x0) true (sde_let w w) gi
          jd_info_begin (jd_info_next tsub w paths dn_value) (fun i => i) jd_info_end.
End Presets.
Arguments jinfo : clear implicits.
