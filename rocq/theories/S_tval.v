(** Specification of Gaussian values with time dependent parameters and correlations, and of antithetic paths. *)
From Coq Require Import String List Arith ZArith Reals.
From Coquelicot Require Import Coquelicot.
From Verif Require Import Base BaseNum BaseArr BaseNd M_paths S_paths S_run M_process M_source S_source M_sde M_integrate S_integrate S_euler M_anti S_law S_gval.
Import ListNotations.
Local Open Scope R_scope.

(** a parameter given by name: its value is a(t) at all t, whether it is given as a function or as a constant *)
Definition var_arg (args : dict (M_sde.param R R)) (k : string) (a : R -> arr R) : Prop :=
  exists p, lookup k args = Some p /\ forall t, peval t p = a t.
(** the array given for a source, at time t *)
Definition input_at (z : input R) (t : R) : res (arr R) :=
  match z with INone => Err TypeError | IArr a => Ok a | IFun f => f t | IProc p => Ok (interp p None (ascalar t)) end.
(** c t is the matrix of correlations set by corr or rho at time t, for values of shape vshape: between components along
    the last axis *)
Definition correlated_at (corr rho : input R) (vshape : list nat) (c : R -> nat -> nat -> R) : Prop :=
  (corr = INone /\ rho = INone /\ forall t i j, c t i j = if Nat.eq_dec i j then 1 else 0) \/
  (exists v M, vshape = (v ++ [M])%list /\ forall t, exists a, input_at corr t = Ok a /\ is_matrix M a /\
     forall i j, (i < M)%nat -> (j < M)%nat -> c t i j = entry a i j) \/
  (exists v n, corr = INone /\ vshape = (v ++ [(2*n)%nat])%list /\ forall t, exists a, input_at rho t = Ok a /\ is_vector n a /\
     forall i j, (i < 2*n)%nat -> (j < 2*n)%nat ->
       c t i j = if Nat.eq_dec i j then 1 else if Nat.eq_dec (i + n)%nat j then rho_at a i else if Nat.eq_dec (j + n)%nat i then rho_at a j else 0).

(** antithetic paths: the second half of the 2n paths are those of the first half with the opposite sign *)
Definition half_path (n : nat) (ix : list nat) : list nat :=
  match rev ix with p :: r => rev ((if Nat.ltb p n then p else p - n)%nat :: r) | [] => [] end.
Definition half_sign (n : nat) (ix : list nat) : R := match rev ix with p :: _ => if Nat.ltb p n then 1 else -1 | [] => 1 end.
Definition antithetic (n : nat) (c : list nat -> list nat -> R) (ix jx : list nat) : R :=
  half_sign n ix * half_sign n jx * c (half_path n ix) (half_path n jx).

(** *** linear equations dx = (al(t) - k(t) x) dt + b(t) dw *)
(** what is left at t of an amount at r *)
Definition decay (k : R -> R) (r t : R) : R := exp (- RInt k r t).
(** the mean at t, from x0 at t0 *)
Definition linear_mean (x0 : R) (k al : R -> R) (t0 t : R) : R := decay k t0 t * x0 + RInt (fun r => decay k r t * al r) t0 t.
(** the covariance at s and t of two such processes, f(t) dt being the covariance of the increments b dw *)
Definition linear_cov (k1 k2 f : R -> R) (t0 s t : R) : R := RInt (fun r => decay k1 r s * decay k2 r t * f r) t0 (Rmin s t).
(** f is bounded by B, and varies by no more than e within h, between lo and hi *)
Definition varies (f : R -> R) (B e h lo hi : R) : Prop :=
  (forall t, lo <= t <= hi -> Rabs (f t) <= B) /\
  forall s t, lo <= s <= hi -> lo <= t <= hi -> Rabs (s - t) <= h -> Rabs (f s - f t) <= e.

(** *** sources *)
(** dw as given: none, so that the source of the class is used, or the class odd_wiener_source *)
Definition given_dw {G} (normal : list nat -> G -> res (arr R) * G) (mvnormal : arr R -> list nat -> G -> res (arr R) * G)
           (anti : bool) (corr rho : input R) : given_source (src (V := R) (G := G) (arr R)) :=
  if anti then GClass (odd_wiener_source normal mvnormal corr rho) else GNone.
(** s is the source made for values of shape vshape + (paths,), from a generator of independent normal variates and of
    normal variates with the correlations c t that are set by corr and rho; n is the number of independent paths *)
Definition noise_source {G} (L : nat -> (G -> R) -> R) (normal : list nat -> G -> res (arr R) * G) (mvnormal : arr R -> list nat -> G -> res (arr R) * G)
           (anti : bool) (corr rho : input R) (c : R -> nat -> nat -> R) (n paths : nat) (vshape : list nat) (s : src (arr R)) : Prop :=
  is_law L /\ normal_ok normal /\ mvnormal_ok mvnormal /\ normal_law L normal (vshape ++ [n]) /\
  (forall t v M, vshape = (v ++ [M])%list -> mvnormal_law L mvnormal M (c t) (v ++ [n])) /\
  correlated_at corr rho vshape c /\ paths = (if anti then 2*n else n)%nat /\
  source_dw normal mvnormal (given_dw normal mvnormal anti corr rho) corr rho paths vshape = Ok s.
(** the correlations of increments, of all paths *)
Definition path_corr (anti : bool) (n : nat) (c : nat -> nat -> R) : list nat -> list nat -> R :=
  if anti then antithetic n (entry_corr c) else entry_corr c.

(** *** parameters and steps *)
(** a(t) broadcasts to w, and its entries are continuous *)
Definition continuous_array (w : list nat) (a : R -> arr R) : Prop :=
  (forall t, broadcasts (shp (a t)) w) /\ forall ix, inb w ix -> forall t, continuous (fun t => bget (a t) ix) t.
Definition array_varies (w : list nat) (a : R -> arr R) (B e h lo hi : R) : Prop :=
  forall ix, inb w ix -> varies (fun t => bget (a t) ix) B e h lo hi.
Definition continuous_corr (w : list nat) (r : R -> list nat -> list nat -> R) : Prop :=
  forall ix jx, inb w ix -> inb w jx -> forall t, continuous (fun t => r t ix jx) t.
Definition corr_varies (w : list nat) (r : R -> list nat -> list nat -> R) (B e h lo hi : R) : Prop :=
  forall ix jx, inb w ix -> inb w jx -> varies (fun t => r t ix jx) B e h lo hi.
(** a timeline from t0, of length T or less, steps h or less, and no more than d steps *)
Definition stepped (timeline pc : list R) (t0 T h : R) (d : nat) : Prop :=
  valid_timeline timeline /\ nth_error timeline 0 = Some t0 /\ (forall t, In t timeline -> t <= t0 + T) /\
  (List.length timeline + List.length pc <= d)%nat /\ 0 <= h /\ fine h timeline pc.
